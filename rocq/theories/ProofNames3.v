(** Names of texts and of programs of several files (C101). *)
From Verif Require Import Base Float Ast Parse Pool Chunk Value Compiler Includes Cli SpecParse SpecPos SpecNames ProofNames ProofNames2 ProofArithEx.
From Verif Require ExProg.

Lemma named_said ast : named_all ast <-> forall x, said ast x -> identifier x.
Proof.
  unfold named_all. rewrite Forall_forall. split.
  - intros H x (n & sp & b & Hi & Hb & Hx). specialize (H _ Hi b Hb). unfold name_fine in H. rewrite Forall_forall in H. auto.
  - intros H [n sp] Hi b Hb. apply Forall_forall. intros x Hx. apply H. exists n, sp, b. auto.
Qed.
Lemma text_names o fuel text id ast i x : parse_code o fuel text id = PMatch ast i -> said ast x -> identifier x.
Proof. intros H. apply named_said. eapply parse_code_named; eauto. Qed.

Section Includes.
Context (read : rstring -> option rstring) (parse : rstring -> nat -> option (list nodeS)).
Context (Hparse : forall text id a, parse text id = Some a -> named_all a).
Lemma resolve_named fuel : forall ast s ast' s', named_all ast ->
  resolve_includes read parse fuel ast s = IOk ast' s' -> named_all ast'.
Proof using Hparse.
  induction fuel as [|k IH]; intros ast s ast' s' Ha; cbn [resolve_includes]; [discriminate|].
  revert s ast' s'. induction ast as [|[n sp] t IHt]; intros s ast' s' E.
  - injection E as <- <-. constructor.
  - inversion Ha as [|? ? Hn Ht]; subst. specialize (IHt Ht).
    destruct n.
    all: try (match type of E with match ?X with _ => _ end = _ => destruct X eqn:Et; try discriminate end;
              injection E as <- <-; apply Forall_cons; [exact Hn|eapply IHt; exact Et]).
    destruct name as [name nsp]. destruct (i_mem name s); [discriminate|].
    destruct (read name) as [text|]; [|discriminate].
    destruct (parse text (length (i_sources s))) as [a1|] eqn:Ep; [|discriminate].
    cbv zeta in E.
    destruct (resolve_includes read parse k a1 _) as [a2 s2| |] eqn:E1; try discriminate.
    destruct (resolve_includes read parse k a2 _) as [a3 s3| |] eqn:E2; try discriminate.
    match type of E with match ?X with _ => _ end = _ => destruct X eqn:Et; try discriminate end.
    injection E as <- <-. apply Forall_cons; [|eapply IHt; exact Et]. cbn [fst].
    apply named_intro; [constructor|]. cbn. eapply IH; [|exact E2]. eapply IH; [|exact E1]. eapply Hparse; eauto.
Qed.
End Includes.
Lemma files_names o read fuel name text ast is x :
  parse_with_includes read (parse_text o) fuel name text = IOk ast is -> said ast x -> identifier x.
Proof.
  assert (Hp : forall t id a, parse_text o t id = Some a -> named_all a).
  { intros t id a. unfold parse_text. destruct (parse_code o _ t id) as [a' j| |] eqn:E; try discriminate.
    intros [= <-]. eapply parse_code_named; eauto. }
  unfold parse_with_includes. destruct (parse_text o text 0) as [a|] eqn:E; [|discriminate].
  intros H. apply named_said. eapply resolve_named; [exact Hp| |exact H]. eapply Hp; eauto.
Qed.
