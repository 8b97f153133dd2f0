From Verif Require Import Base Float Ast Parse Includes SpecIncludes ProofArithEx.

Section Proof.
Context (read : rstring -> option rstring) (parse : rstring -> nat -> option (list nodeS)).
Notation resolve := (resolve_includes read parse).

(** The include case and the others, one node at a time. *)
Lemma resolve_nil k s : resolve (S k) [] s = IOk [] s.
Proof. reflexivity. Qed.
Lemma resolve_include k name nsp body sp t s :
  resolve (S k) ((NInclude (name, nsp) body, sp) :: t) s =
  if i_mem name s then IErr (ECircularInclude name) nsp s else
  match read name with
  | None => IErr (ECouldNotResolve name) nsp s
  | Some text =>
      match parse text (length (i_sources s)) with
      | None => IErr (EUnexpectedToken 0) (mkSpan 0 0 (length (i_sources s))) (i_add name s)
      | Some a1 =>
          match resolve k a1 (i_add name s) with
          | IOk a2 s2 =>
              match resolve k a2 (i_mark name s2) with
              | IOk a3 s3 =>
                  match resolve (S k) t s3 with
                  | IOk t' s4 => IOk ((NInclude (name, nsp) (Some a3), sp) :: t') s4
                  | r => r
                  end
              | r => r
              end
          | r => r
          end
      end
  end.
Proof. reflexivity. Qed.
Lemma resolve_other k n sp t s : (forall x b, n <> NInclude x b) ->
  resolve (S k) ((n, sp) :: t) s =
  match resolve (S k) t s with IOk t' s' => IOk ((n, sp) :: t') s' | r => r end.
Proof. intros H. destruct n; try reflexivity. exfalso; eapply H; reflexivity. Qed.

Lemma included_other n sp t : (forall x b, n <> NInclude x b) -> included ((n, sp) :: t) = included t.
Proof. intros H. destruct n; try reflexivity. exfalso; eapply H; reflexivity. Qed.
Lemma is_include n : (exists x b, n = NInclude x b) \/ (forall x b, n <> NInclude x b).
Proof. destruct n; try (right; discriminate). left; eauto. Qed.

(** A program without includes is left alone. *)
Lemma resolve_plain k ast s : included ast = [] -> resolve (S k) ast s = IOk ast s.
Proof.
  revert s; induction ast as [|[n sp] t IH]; intros s H; [reflexivity|].
  destruct (is_include n) as [([x xs] & b & ->)|Hn]; [discriminate|].
  rewrite included_other in H by auto. rewrite resolve_other, IH by auto. reflexivity.
Qed.

Lemma i_mem_iff x s : i_mem x s = true <-> In x (i_resolved s).
Proof.
  unfold i_mem. rewrite existsb_exists. split.
  - intros (y & H1 & H2). apply seqb_eq in H2. subst; auto.
  - intros H. exists x. rewrite seqb_refl. auto.
Qed.

(** Includes of files without includes. *)
Lemma resolve_flat k ast : forall s,
  (forall f, In f (included ast) -> exists text, read f = Some text /\
     forall id, exists a, parse text id = Some a /\ included a = []) ->
  NoDup (included ast) -> (forall f, In f (included ast) -> ~ In f (i_resolved s)) ->
  exists ast' s', resolve (S (S k)) ast s = IOk ast' s' /\
    spliced read parse (length (i_sources s)) ast ast' (length (i_sources s')).
Proof.
  induction ast as [|[n sp] t IH]; intros s Hf Hd Hs.
  - exists [], s. split; [reflexivity|constructor].
  - destruct (is_include n) as [([x xs] & b & ->)|Hn].
    + cbn [included] in *. inversion Hd; subst.
      destruct (Hf x (or_introl eq_refl)) as (text & Hr & Hp).
      destruct (Hp (length (i_sources s))) as (a & Ha & Hi).
      rewrite resolve_include.
      destruct (i_mem x s) eqn:Em; [apply i_mem_iff in Em; exfalso; eapply Hs; [left; auto|auto]|].
      rewrite Hr, Ha, !resolve_plain by auto.
      destruct (IH (i_mark x (i_add x s))) as (t' & s' & E & Hsp).
      * intros f Hin; apply Hf; right; auto.
      * auto.
      * intros f Hin. cbn. intros [<-|Hin2]; [auto|]. eapply Hs; [right; eauto|auto].
      * rewrite E. eexists _, _. split; [reflexivity|]. econstructor; eauto.
        cbn in Hsp. rewrite app_length in Hsp. cbn in Hsp. rewrite Nat.add_comm in Hsp. exact Hsp.
    + rewrite included_other in * by auto. rewrite resolve_other by auto.
      destruct (IH s Hf Hd Hs) as (t' & s' & E & Hsp). rewrite E.
      eexists _, _. split; [reflexivity|]. constructor; auto.
Qed.

(** What a successful run says: resolved names grow, every included name is resolved, and
    the names included by the result are those of the program. *)
Lemma resolve_marks fuel : forall ast s ast' s', resolve fuel ast s = IOk ast' s' ->
  included ast' = included ast /\ incl (i_resolved s) (i_resolved s') /\
  incl (included ast) (i_resolved s').
Proof.
  induction fuel as [|k IHf]; [discriminate|].
  induction ast as [|[n sp] t IH]; intros s ast' s' E.
  - injection E as <- <-. split; [reflexivity|]. split; [apply incl_refl|intros x []].
  - destruct (is_include n) as [([x xs] & b & ->)|Hn].
    + rewrite resolve_include in E.
      destruct (i_mem x s) eqn:Em; [discriminate|]. destruct (read x) as [text|]; [|discriminate].
      destruct (parse text (length (i_sources s))) as [a|] eqn:Ep; [|discriminate].
      destruct (resolve k a (i_add x s)) as [a2 s2| |] eqn:E1; try discriminate.
      destruct (resolve k a2 (i_mark x s2)) as [a3 s3| |] eqn:E2; try discriminate.
      destruct (resolve (S k) t s3) as [t' s4| |] eqn:E3; try discriminate. injection E as <- <-.
      apply IHf in E1 as (_ & I1 & _). apply IHf in E2 as (_ & I2 & _). apply IH in E3 as (I3 & I4 & I5).
      cbn [included]. split; [now rewrite I3|]. cbn [i_resolved i_add i_mark] in *.
      assert (Hx : In x (i_resolved s4)) by (apply I4, I2; left; auto).
      split.
      * intros y Hy. apply I4, I2. right. auto.
      * intros y [<-|Hy]; auto.
    + rewrite resolve_other in E by auto. rewrite included_other by auto.
      destruct (resolve (S k) t s) as [t' s4| |] eqn:E3; try discriminate. injection E as <- <-.
      apply IH in E3 as (I3 & I4 & I5). rewrite included_other by auto. auto.
Qed.

(** Resolving a program again fails as soon as one of its files is marked. *)
Lemma resolve_again fuel ast s f : In f (included ast) -> In f (i_resolved s) ->
  forall ast' s', resolve fuel ast s <> IOk ast' s'.
Proof.
  destruct fuel as [|k]; [discriminate|]. revert s.
  induction ast as [|[n sp] t IH]; intros s H1 H2 ast' s' E; [contradiction|].
  destruct (is_include n) as [([x xs] & b & ->)|Hn].
  - rewrite resolve_include in E. destruct H1 as [->|H1].
    + apply i_mem_iff in H2. rewrite H2 in E. discriminate.
    + destruct (i_mem x s) eqn:Em; [discriminate|]. destruct (read x) as [text|]; [|discriminate].
      destruct (parse text (length (i_sources s))) as [a|] eqn:Ep; [|discriminate].
      destruct (resolve k a (i_add x s)) as [a2 s2| |] eqn:E1; try discriminate.
      destruct (resolve k a2 (i_mark x s2)) as [a3 s3| |] eqn:E2; try discriminate.
      destruct (resolve (S k) t s3) as [t' s4| |] eqn:E3; try discriminate.
      apply resolve_marks in E1 as (_ & I1 & _). apply resolve_marks in E2 as (_ & I2 & _).
      eapply IH; [exact H1| |exact E3]. apply I2; right; apply I1; auto.
  - rewrite resolve_other in E by auto. rewrite included_other in H1 by auto.
    destruct (resolve (S k) t s) as [t' s4| |] eqn:E3; try discriminate. eapply IH; eauto.
Qed.

(** Success means: the names are distinct and the files include nothing. *)
Lemma resolve_only_flat fuel : forall ast s ast' s', resolve fuel ast s = IOk ast' s' ->
  NoDup (included ast) /\ (forall f, In f (included ast) -> ~ In f (i_resolved s)) /\
  spliced read parse (length (i_sources s)) ast ast' (length (i_sources s')) /\
  forall f, In f (included ast) -> exists text id a,
    read f = Some text /\ parse text id = Some a /\ included a = [].
Proof.
  destruct fuel as [|k]; [discriminate|].
  induction ast as [|[n sp] t IH]; intros s ast' s' E.
  - injection E as <- <-. cbn. repeat split; try constructor; intros f [].
  - destruct (is_include n) as [([x xs] & b & ->)|Hn].
    + rewrite resolve_include in E.
      destruct (i_mem x s) eqn:Em; [discriminate|]. destruct (read x) as [text|] eqn:Er; [|discriminate].
      destruct (parse text (length (i_sources s))) as [a|] eqn:Ep; [|discriminate].
      destruct (resolve k a (i_add x s)) as [a2 s2| |] eqn:E1; try discriminate.
      destruct (resolve k a2 (i_mark x s2)) as [a3 s3| |] eqn:E2; try discriminate.
      destruct (resolve (S k) t s3) as [t' s4| |] eqn:E3; try discriminate. injection E as <- <-.
      (* the included file has no include *)
      pose proof (resolve_marks _ _ _ _ _ E1) as (J1 & J2 & J3).
      assert (Hi : included a = []).
      { destruct (included a) as [|f l] eqn:Ei; [auto|]. exfalso.
        eapply (resolve_again k a2 (i_mark x s2) f); [|..|exact E2].
        - rewrite J1. left; auto.
        - right. apply J3. left; auto. }
      destruct k as [|k']; [discriminate|].
      rewrite resolve_plain in E1 by auto. injection E1 as <- <-.
      rewrite resolve_plain in E2 by auto. injection E2 as <- <-.
      apply IH in E3 as (I1 & I2 & I3 & I4). cbn [included].
      assert (Hx : ~ In x (i_resolved s)) by (rewrite <- i_mem_iff, Em; discriminate).
      split; [|split; [|split]].
      * constructor; auto. intros Hin. apply (I2 x Hin). left; auto.
      * intros f [<-|Hin]; auto. intros Hf. apply (I2 f Hin). right; auto.
      * econstructor; eauto. cbn in I3. rewrite app_length in I3. cbn in I3. rewrite Nat.add_comm in I3. exact I3.
      * intros f [<-|Hin]; eauto 10.
    + rewrite resolve_other in E by auto. rewrite included_other by auto.
      destruct (resolve (S k) t s) as [t' s4| |] eqn:E3; try discriminate. injection E as <- <-.
      apply IH in E3 as (I1 & I2 & I3 & I4). repeat split; auto. constructor; auto.
Qed.

(** The set of files that include one of the set first: resolving never ends. *)
Lemma resolve_forever (S0 : rstring -> Prop) :
  (forall f, S0 f -> exists text, read f = Some text /\
     forall id, exists a, parse text id = Some a /\ exists g l, included a = g :: l /\ S0 g) ->
  forall fuel ast s, (exists g l, included ast = g :: l /\ S0 g) ->
  (forall g, S0 g -> ~ In g (i_resolved s)) -> resolve fuel ast s = IDeep.
Proof.
  intros H. induction fuel as [|k IHf]; [reflexivity|].
  induction ast as [|[n sp] t IH]; intros s (g & l & Hi & Hg) Hs; [discriminate|].
  destruct (is_include n) as [([x xs] & b & ->)|Hn].
  - cbn in Hi. injection Hi as -> _. rewrite resolve_include.
    destruct (i_mem g s) eqn:Em; [apply i_mem_iff in Em; exfalso; eapply Hs; eauto|].
    destruct (H g Hg) as (text & Hr & Hp). destruct (Hp (length (i_sources s))) as (a & Ha & Hi).
    rewrite Hr, Ha, IHf; auto.
  - rewrite resolve_other by auto. rewrite included_other in Hi by auto.
    rewrite IH; eauto.
Qed.
End Proof.

(** ** Concrete file systems, with the real parser *)
Definition q_parse (text : rstring) (id : nat) : option (list nodeS) :=
  match parse_code no_oracle 60 text id with PMatch a _ => Some a | _ => None end.
Definition files (l : list (rstring * rstring)) (name : rstring) : option rstring :=
  alookup seqb name l.
Definition quoted (x : rstring) : rstring := [34%N] ++ x ++ [34%N].

Definition fs_nested := files
  [(str "a", str "include " ++ quoted (str "b")); (str "b", str "let x = 1;x")].
Definition fs_self := files [(str "a", str "include " ++ quoted (str "a"))].
Definition fs_flat := files [(str "a", str "let x = 1;x"); (str "b", str "let y = 2;y")].

Definition use_a := str "include " ++ quoted (str "a").
Definition use_aa := use_a ++ str " include " ++ quoted (str "a").
Definition use_ab := use_a ++ str " include " ++ quoted (str "b") ++ str " x + y".

Lemma files_in l name text : files l name = Some text -> In name (map fst l).
Proof.
  unfold files. induction l as [|[k v] l IH]; cbn; [discriminate|].
  destruct (seqb name k) eqn:E; [apply seqb_eq in E; auto|]. intros H; right; auto.
Qed.

Lemma nested_edges f g : includes fs_nested q_parse f g -> f = str "a" /\ g = str "b".
Proof.
  intros (text & id & ast & Hr & Hp & Hin). pose proof (files_in _ _ _ Hr) as [<-|[<-|[]]].
  - vm_compute in Hr. injection Hr as <-. vm_compute in Hp. injection Hp as <-.
    cbn in Hin. destruct Hin as [<-|[]]. auto.
  - vm_compute in Hr. injection Hr as <-. vm_compute in Hp. injection Hp as <-.
    cbn in Hin. contradiction.
Qed.
Lemma nested_acyclic : acyclic fs_nested q_parse.
Proof.
  assert (H : forall f g, leads_to fs_nested q_parse f g -> f = str "a" /\ g = str "b").
  { induction 1 as [f g H|f g h H1 H2 IH]; [now apply nested_edges|].
    apply nested_edges in H1 as [_ ->]. destruct IH as [IH _]. discriminate. }
  intros f Hf. apply H in Hf as [-> Hf]. discriminate.
Qed.
Lemma nested_refused fuel : parse_with_includes fs_nested q_parse (3 + fuel) (str "main") use_a
  = IErr (ECircularInclude (str "b")) (mkSpan 8 11 1) (mkIState [str "main"; str "a"; str "b"] [str "a"; str "b"]).
Proof. vm_compute. reflexivity. Qed.

Lemma flat_acyclic f g : ~ includes fs_flat q_parse f g.
Proof.
  intros (text & id & ast & Hr & Hp & Hin). pose proof (files_in _ _ _ Hr) as [<-|[<-|[]]];
    vm_compute in Hr; injection Hr as <-; vm_compute in Hp; injection Hp as <-; cbn in Hin; contradiction.
Qed.
Lemma twice_refused fuel : parse_with_includes fs_flat q_parse (2 + fuel) (str "main") use_aa
  = IErr (ECircularInclude (str "a")) (mkSpan 20 23 0) (mkIState [str "main"; str "a"] [str "a"]).
Proof. vm_compute. reflexivity. Qed.

Lemma self_includes : includes fs_self q_parse (str "a") (str "a").
Proof.
  eexists _, 0, _. split; [reflexivity|]. split; [vm_compute; reflexivity|]. cbn. auto.
Qed.
Lemma self_forever fuel : parse_with_includes fs_self q_parse fuel (str "main") use_a = IDeep.
Proof.
  unfold parse_with_includes.
  destruct (q_parse use_a 0) as [ast|] eqn:E; [|vm_compute in E; discriminate].
  apply (resolve_forever fs_self q_parse (fun f => f = str "a")).
  - intros f ->. eexists. split; [reflexivity|]. intros id. eexists. split; [vm_compute; reflexivity|].
    eexists _, _. split; reflexivity.
  - vm_compute in E. injection E as <-. eexists _, _. split; reflexivity.
  - intros g _ [].
Qed.

Lemma flat_ok read parse fuel name text ast : 2 <= fuel -> parse text 0 = Some ast ->
  (forall f, In f (included ast) -> exists content, read f = Some content /\
     forall id, exists a, parse content id = Some a /\ included a = []) ->
  NoDup (included ast) ->
  exists ast' s n, parse_with_includes read parse fuel name text = IOk ast' s /\
    spliced read parse 1 ast ast' n.
Proof.
  intros Hk Hp Hf Hd. destruct fuel as [|[|k]]; [lia|lia|]. unfold parse_with_includes. rewrite Hp.
  destruct (resolve_flat read parse k ast (mkIState [name] []) Hf Hd) as (ast' & s & E & H).
  { intros f _ []. }
  eauto 10.
Qed.

Lemma result_flat read parse fuel name text ast' s :
  parse_with_includes read parse fuel name text = IOk ast' s ->
  exists ast n, parse text 0 = Some ast /\ spliced read parse 1 ast ast' n /\
    NoDup (included ast) /\
    forall f, In f (included ast) -> exists content id a,
      read f = Some content /\ parse content id = Some a /\ included a = [].
Proof.
  unfold parse_with_includes. destruct (parse text 0) as [ast|] eqn:E; [|discriminate].
  intros H. apply resolve_only_flat in H as (H1 & _ & H2 & H3). eauto 10.
Qed.

Lemma missing_file read parse fuel name text before x xsp body sp after :
  parse text 0 = Some (before ++ (NInclude (x, xsp) body, sp) :: after) ->
  included before = [] -> read x = None ->
  parse_with_includes read parse (S fuel) name text = IErr (ECouldNotResolve x) xsp (mkIState [name] []).
Proof.
  intros Hp Hb Hr. unfold parse_with_includes. rewrite Hp.
  assert (Hm : i_mem x (mkIState [name] []) = false) by reflexivity.
  revert Hm. generalize (mkIState [name] []) as s. clear Hp.
  induction before as [|[n nsp] t IH]; intros s Hm.
  - cbn [app]. rewrite resolve_include, Hm, Hr. reflexivity.
  - destruct (is_include n) as [([y ys] & b & ->)|Hn]; [discriminate|].
    rewrite included_other in Hb by auto. cbn [app]. rewrite resolve_other, IH by auto. reflexivity.
Qed.

Lemma nested_wrong : exists read name text file sp s, acyclic read q_parse /\
  forall fuel, 3 <= fuel ->
  parse_with_includes read q_parse fuel name text = IErr (ECircularInclude file) sp s.
Proof.
  exists fs_nested, (str "main"), use_a, (str "b"). do 2 eexists. split; [exact nested_acyclic|].
  intros fuel H. replace fuel with (3 + (fuel - 3)) by lia. apply nested_refused.
Qed.
Lemma nested_never read parse fuel name text ast f g ast' s :
  parse text 0 = Some ast -> In f (included ast) ->
  (forall content id a, read f = Some content -> parse content id = Some a -> In g (included a)) ->
  parse_with_includes read parse fuel name text <> IOk ast' s.
Proof.
  intros Hp Hf Hg E. apply result_flat in E as (ast2 & n & Hp2 & _ & _ & H).
  rewrite Hp in Hp2. injection Hp2 as <-. destruct (H f Hf) as (c & id & a & H1 & H2 & H3).
  specialize (Hg c id a H1 H2). rewrite H3 in Hg. contradiction.
Qed.
Lemma nested_never_ex fuel ast' s :
  parse_with_includes fs_nested q_parse fuel (str "main") use_a <> IOk ast' s.
Proof.
  destruct (q_parse use_a 0) as [ast|] eqn:E; [|vm_compute in E; discriminate].
  apply (nested_never fs_nested q_parse fuel (str "main") use_a ast (str "a") (str "b")); auto.
  - vm_compute in E. injection E as <-. cbn. auto.
  - intros c id a H1 H2. vm_compute in H1. injection H1 as <-. vm_compute in H2. injection H2 as <-. cbn. auto.
Qed.
Lemma twice_wrong : exists read name text file sp s, (forall f g, ~ includes read q_parse f g) /\
  forall fuel, 2 <= fuel ->
  parse_with_includes read q_parse fuel name text = IErr (ECircularInclude file) sp s.
Proof.
  exists fs_flat, (str "main"), use_aa, (str "a"). do 2 eexists. split; [exact flat_acyclic|].
  intros fuel H. replace fuel with (2 + (fuel - 2)) by lia. apply twice_refused.
Qed.
Lemma cycle_wrong : exists read name text file, includes read q_parse file file /\
  forall fuel, parse_with_includes read q_parse fuel name text = IDeep.
Proof. exists fs_self, (str "main"), use_a, (str "a"). split; [exact self_includes|exact self_forever]. Qed.
