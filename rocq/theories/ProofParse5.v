(** The names in a parsed program are identifiers. *)
From Verif Require Import Base Float NumText Ast Parse SpecArith SpecParse SpecReady SpecEval ProofParse.

Definition name_fine (b : node) : Prop :=
  match b with
  | NIdentifier x => ordinary x
  | NAssignment x _ | NFunction x _ _ | NDeclaration (VarDecl x) _
  | NContext _ _ (Some (VarDecl x)) _ => ordinary (fst x)
  | _ => True
  end.
Definition named (n : node) : Prop := forall b, inside b n -> name_fine b.
Definition nN (e : nodeS) : Prop := named (fst e).
Definition named_all (l : list nodeS) : Prop := Forall (fun e => named (fst e)) l.

Lemma named_intro n : name_fine n -> named_all (children n) -> named n.
Proof.
  intros H1 H2 d Hd. inversion Hd; subst; auto. unfold named_all in H2. rewrite Forall_forall in H2. exact (H2 (c, sp) H d H0).
Qed.
Lemma named_return v : match v with Some e => named (fst e) | None => True end -> named (NReturn v).
Proof. intros H. apply named_intro; [exact I|]. destruct v; cbn; [constructor; auto|]; constructor. Qed.
Lemma named_nothing f : named (nothing f).
Proof. destruct f; apply named_intro; cbn; auto; constructor. Qed.
Lemma named_finished f sp b b' : named_all b -> finished f sp b b' -> named_all b'.
Proof.
  unfold named_all. intros H Hf. destruct Hf as [|l v sp'|l n sp' Hn|l n sp' Hn Hr]; auto.
  - constructor; [apply named_nothing|constructor].
  - apply Forall_app in H as [H1 H2]. inversion H2; subst. apply Forall_app. split; auto.
    repeat constructor; auto. apply named_nothing.
  - apply Forall_app in H as [H1 H2]. inversion H2; subst. apply Forall_app. split; auto.
    repeat constructor. destruct f; auto. apply named_return; auto.
Qed.
Lemma y_and {A} (Q R : A -> Prop) p : yields Q p -> yields R p -> yields (fun a => Q a /\ R a) p.
Proof. intros H1 H2 i a i' E. split; eauto. Qed.
Lemma y_ident : yields ordinary r_IDENT.
Proof.
  unfold r_IDENT. intros i a i'. unfold pbind. destruct (pchar is_start i) as [c j| |] eqn:E; try discriminate.
  destruct (prun is_word j) as [t k| |]; try discriminate.
  destruct (existsb (seqb (c :: t)) reserved); cbn; [discriminate|]. intros [= <- <-]. cbn.
  unfold pchar in E. destruct (snd i) as [|d s]; [discriminate|]. destruct (is_start d) eqn:S; [|discriminate].
  injection E as <- _. intros ->. vm_compute in S. discriminate.
Qed.
Lemma y_spident id : yields (fun x : spanned rstring => ordinary (fst x)) (ident id).
Proof.
  unfold ident, sp_of. apply y_seq; intros s. eapply y_bind; [apply y_ident|intros x Hx].
  apply y_seq; intros e. apply y_ret. exact Hx.
Qed.
Lemma y_commasepp {A} (Q : A -> Prop) (p : P A) : yields Q p -> yields (Forall Q) (commasepp p).
Proof.
  intros H. unfold commasepp. apply y_seq; intros _. eapply y_bind.
  - apply (y_sep1 Q). apply y_seq; intros _. eapply y_bind; [exact H|intros x Hx]. apply y_seq; intros _. apply y_ret; exact Hx.
  - intros l Hl. do 2 (apply y_seq; intros _). apply y_ret; auto.
Qed.
Ltac nin := apply named_intro; [cbn [name_fine]; auto|cbn [children opt_list]; unfold named_all;
  repeat first [apply Forall_nil | apply Forall_cons; [auto|] | apply Forall_app; split | assumption ]].

Section Grammar.
Context (o : oracle) (id : nat) (climb : nat -> P nodeS) (Hcomplete : forall k, yields nS (climb k))
        (Hnamed : forall k, yields (fun e : nodeS => named (fst e)) (climb k)).

Lemma n_block f : yields named_all (r_block id climb f).
Proof using Hcomplete Hnamed.
  unfold r_block. apply y_seq; intros s. do 2 (apply y_seq; intros _).
  eapply y_bind; [apply (y_sep (fun e => nS e /\ named (fst e))); apply y_and; [apply Hcomplete|apply Hnamed]|intros l Hl].
  do 2 (apply y_seq; intros _). apply y_seq; intros e. apply y_ret.
  assert (Hc : complete_all l) by (apply ca_Forall; eapply Forall_impl; [|exact Hl]; intros ? []; auto).
  eapply named_finished; [|apply implicit_finished; exact Hc]. eapply Forall_impl; [|exact Hl]; intros ? []; auto.
Qed.
Lemma n_if fuel : yields named (r_if id climb fuel).
Proof using Hcomplete Hnamed.
  induction fuel as [|fuel IH]; cbn [r_if]; [intros i a i' E; discriminate|].
  do 3 (apply y_seq; intros _). eapply y_bind; [apply Hnamed|intros c Hc].
  apply y_seq; intros _. eapply y_bind; [apply n_block|intros t Ht].
  apply y_seq; intros _. eapply y_bind.
  - apply (y_opt named_all). do 2 (apply y_seq; intros _). apply y_alt; [apply n_block|].
    apply y_seq; intros s. apply y_seq; intros _. eapply y_bind; [apply IH|intros x Hx].
    apply y_seq; intros _. apply y_seq; intros e. apply y_ret. constructor; [auto|constructor].
  - intros e He. apply y_seq; intros _. apply y_ret. destruct e as [e|]; cbn in He; nin.
Qed.
Lemma n_args : yields named_all (args_ climb).
Proof using Hnamed.
  unfold args_. do 2 (apply y_seq; intros _). eapply y_bind; [apply (y_commasep nN); apply Hnamed|intros l Hl].
  do 2 (apply y_seq; intros _). apply y_ret. exact Hl.
Qed.
Lemma n_switch : yields named (r_switch id climb).
Proof using Hcomplete Hnamed.
  unfold r_switch. do 3 (apply y_seq; intros _). eapply y_bind; [apply Hnamed|intros v Hv].
  do 3 (apply y_seq; intros _). eapply y_bind.
  - apply (y_sep (fun vc : list nodeS * list nodeS => named_all (fst vc) /\ named_all (snd vc))).
    unfold r_case. do 3 (apply y_seq; intros _).
    eapply y_bind; [apply (y_sep1 nN); apply Hnamed|intros l Hl]. apply y_seq; intros _.
    eapply y_bind; [apply n_block|intros b Hb]. apply y_seq; intros _. apply y_ret. split; auto.
  - intros cs Hcs. apply y_seq; intros _. eapply y_bind.
    + apply (y_opt named_all). unfold r_default. do 3 (apply y_seq; intros _).
      eapply y_bind; [apply n_block|intros b Hb]. apply y_seq; intros _. apply y_ret; auto.
    + intros d Hd. do 3 (apply y_seq; intros _). apply y_ret. apply named_intro; [exact I|]. cbn [children].
      constructor; auto. apply Forall_app. split.
      * apply Forall_forall. intros e He. apply in_flat_map in He as ([x b] & H1 & H2).
        apply in_flat_map in H1 as (vc & H3 & H4). apply in_map_iff in H4 as (y & [= <- <-] & H4).
        rewrite Forall_forall in Hcs. apply Hcs in H3 as [H5 H6]. unfold named_all in *. rewrite Forall_forall in H5, H6.
        destruct H2 as [H2|H2]; cbn [fst snd] in H2; [subst e|]; auto.
      * destruct d as [d|]; cbn; [exact Hd|constructor].
Qed.
Lemma n_with_op i f n : ordinary (fst i) -> named (fst n) -> named (fst (with_op i f n)).
Proof using. intros Hi H. destruct f; cbn; auto. nin. cbn [fst]. nin. Qed.

Lemma n_atoms fuel : Forall (yields named) (prefix_atoms o id climb fuel).
Proof using Hcomplete Hnamed.
  unfold prefix_atoms. apply Forall_app; split; [|apply Forall_app; split].
  - repeat constructor.
    + do 2 (apply y_seq; intros _). eapply y_bind; [apply (y_opt (fun e : nodeS => named (fst e))); apply Hnamed|intros e He].
      apply y_ret. apply named_return. destruct e; auto.
    + do 2 (apply y_seq; intros _). eapply y_bind; [apply y_spident|intros i Hi]. do 3 (apply y_seq; intros _).
      eapply y_bind; [apply Hnamed|intros n Hn]. apply y_ret. nin.
    + do 2 (apply y_seq; intros _). eapply y_bind; [apply y_spident|intros i Hi]. apply y_seq; intros _. apply y_seq; intros f.
      do 2 (apply y_seq; intros _). eapply y_bind; [apply Hnamed|intros n Hn]. apply y_ret. nin.
      apply n_with_op; auto.
    + do 2 (apply y_seq; intros _). apply y_seq; intros i. do 3 (apply y_seq; intros _).
      eapply y_bind; [apply Hnamed|intros n Hn]. apply y_ret. nin.
    + eapply y_bind; [apply y_spident|intros i Hi]. apply y_seq; intros _. apply y_seq; intros f.
      do 2 (apply y_seq; intros _). eapply y_bind; [apply Hnamed|intros n Hn]. apply y_ret. nin.
      apply n_with_op; auto.
    + do 2 (apply y_seq; intros _). eapply y_bind; [apply y_opt; apply y_spident|intros nm Hnm]. do 3 (apply y_seq; intros _).
      apply y_seq; intros a. do 3 (apply y_seq; intros _). eapply y_bind; [apply n_block|intros b Hb].
      apply y_ret. destruct nm; cbn in Hnm; nin.
    + apply n_if.
    + apply n_switch.
    + do 2 (apply y_seq; intros _). eapply y_bind; [apply Hnamed|intros c Hc]. apply y_seq; intros _.
      eapply y_bind; [apply n_block|intros b Hb]. apply y_ret. nin.
    + do 2 (apply y_seq; intros _). apply y_seq; intros v. do 3 (apply y_seq; intros _).
      eapply y_bind; [apply Hnamed|intros c Hc]. apply y_seq; intros _.
      eapply y_bind; [apply n_block|intros b Hb]. apply y_ret. nin.
    + do 2 (apply y_seq; intros _). apply y_seq; intros v. do 3 (apply y_seq; intros _).
      eapply y_bind; [apply Hnamed|intros c Hc]. apply y_seq; intros _.
      eapply y_bind; [apply n_block|intros b Hb]. apply y_ret. nin.
    + do 2 (apply y_seq; intros _). apply y_seq; intros nm. apply y_seq; intros _.
      eapply y_bind; [apply n_args|intros a Ha].
      eapply y_bind; [apply (y_opt (Forall (fun x : spanned rstring => ordinary (fst x))));
                      do 3 (apply y_seq; intros _); apply y_commasep, y_spident|intros v Hv]. apply y_seq; intros _.
      eapply y_bind; [apply n_block|intros b Hb]. apply y_ret.
      destruct v as [[|x [|y v]]|]; nin. cbn in Hv. inversion Hv; auto.
    + do 2 (apply y_seq; intros _). apply y_seq; intros s. apply y_ret. nin.
    + apply y_seq; intros s. do 3 (apply y_seq; intros _). apply y_seq; intros e. apply y_ret. nin.
  - apply Forall_forall. intros p Hp. apply in_map_iff in Hp as (x & <- & _).
    do 2 (apply y_seq; intros _). eapply y_bind; [apply Hnamed|intros n Hn]. apply y_ret. nin.
  - repeat constructor.
    + apply y_seq; intros l. apply y_ret. nin.
    + do 2 (apply y_seq; intros _). eapply y_bind; [apply (y_commasep nN); apply Hnamed|intros l Hl].
      do 2 (apply y_seq; intros _). apply y_ret. nin.
    + do 2 (apply y_seq; intros _). eapply y_bind; [apply Hnamed|intros a Ha]. do 3 (apply y_seq; intros _).
      eapply y_bind; [apply Hnamed|intros b Hb]. do 2 (apply y_seq; intros _). apply y_ret. nin.
    + do 2 (apply y_seq; intros _). apply y_seq; intros l. do 3 (apply y_seq; intros _).
      apply y_seq; intros r. do 2 (apply y_seq; intros _). apply y_ret. nin.
    + apply y_seq; intros _. apply y_seq; intros i. apply y_seq; intros _.
      eapply y_bind; [apply n_args|intros a Ha]. apply y_ret. nin.
    + eapply y_bind; [apply y_ident|intros i Hi]. apply y_ret. nin.
    + do 2 (apply y_seq; intros _). eapply y_bind; [apply Hnamed|intros n Hn]. do 2 (apply y_seq; intros _).
      apply y_ret. exact Hn.
    + eapply y_bind; [apply n_block|intros b Hb]. apply y_ret. nin.
Qed.
Lemma n_posts min lhs : named (fst lhs) -> Forall (yields named) (posts climb min lhs).
Proof using Hnamed.
  intros Hl. unfold posts. apply Forall_app; split.
  - apply Forall_forall. intros p Hp. apply in_map_iff in Hp as (x & <- & _).
    destruct (min <=? fst x); [|apply y_fail]. do 3 (apply y_seq; intros _).
    eapply y_bind; [apply Hnamed|intros n Hn]. apply y_ret. destruct (snd (snd x)); nin.
  - repeat constructor.
    + apply y_seq; intros _. eapply y_bind; [apply n_args|intros a Ha]. apply y_ret. nin.
    + do 3 (apply y_seq; intros _). eapply y_bind; [apply Hnamed|intros n Hn]. do 2 (apply y_seq; intros _).
      apply y_ret. nin.
Qed.
Lemma n_post_loop n min start : forall lhs : nodeS, named (fst lhs) ->
  yields (fun e : nodeS => named (fst e)) (post_loop id climb n min start lhs).
Proof using Hnamed.
  induction n as [|n IH]; intros lhs Hl i a i' E; cbn [post_loop] in E; [discriminate|].
  destruct (pfirst (posts climb min lhs) i) as [x j| |] eqn:Ep; try discriminate.
  - eapply IH; [|exact E]. cbn [fst]. eapply (y_first named); [apply n_posts; exact Hl|exact Ep].
  - injection E as <- <-; auto.
Qed.
End Grammar.

Lemma n_climb o id fuel : forall min, yields (fun e : nodeS => named (fst e)) (climb o id fuel min).
Proof.
  induction fuel as [|fuel IH]; intros min i a i' E; cbn [climb] in E; [discriminate|].
  destruct (pfirst (prefix_atoms o id (climb o id fuel) fuel) i) as [x j| |] eqn:Ep; try discriminate.
  eapply n_post_loop; [exact IH| |exact E]. cbn [fst].
  eapply (y_first named); [apply n_atoms; [apply y_climb|exact IH]|exact Ep].
Qed.
Lemma parse_code_named o fuel text id ast i : parse_code o fuel text id = PMatch ast i -> ordinary_names ast.
Proof.
  change (parse_code o fuel text id = PMatch ast i -> named_all ast).
  unfold parse_code, whole. destruct (r_code o id fuel (0, text)) as [a j| |] eqn:E; try discriminate.
  destruct (snd j); [|discriminate]. intros [= <- <-].
  assert (Y : yields named_all (r_code o id fuel)); [|eapply Y; eauto]. clear.
  unfold r_code. apply y_seq; intros _. apply y_seq; intros s.
  eapply y_bind; [apply (y_opt (Forall (fun e => nS e /\ named (fst e))));
                  apply (y_sep (fun e => nS e /\ named (fst e))); apply y_and; [apply y_climb|apply n_climb]|intros c Hc].
  apply y_seq; intros e. apply y_seq; intros _. apply y_ret.
  set (l := match c with Some c => c | None => [] end).
  assert (Hl : Forall (fun e => nS e /\ named (fst e)) l) by (unfold l; destruct c; auto).
  assert (Hc' : complete_all l) by (apply ca_Forall; eapply Forall_impl; [|exact Hl]; intros ? []; auto).
  eapply named_finished; [|apply implicit_finished; exact Hc']. eapply Forall_impl; [|exact Hl]; intros ? []; auto.
Qed.
