From Verif Require Import Base Float NumText Ast Parse SpecArith SpecParse ProofCompiler.

(** ** Bodies *)
Lemma inside_trans a b c : inside a b -> inside b c -> inside a c.
Proof. intros H1 H2; revert H1; induction H2; intros; auto. eapply inside_child; eauto. Qed.

Lemma complete_intro n :
  (forall f b, In (f, b) (bodies n) -> good_body f b) -> complete_all (children n) -> complete n.
Proof.
  intros H1 H2 d f b Hd Hb. inversion Hd; subst; [eauto|]. eapply H2; eauto.
Qed.
Lemma complete_inv n : complete n ->
  (forall f b, In (f, b) (bodies n) -> good_body f b) /\ complete_all (children n).
Proof.
  intros H; split; [intros f b; apply H; constructor|].
  intros c sp Hc d f b Hd. apply H. eapply inside_child; eauto.
Qed.

Lemma ca_nil : complete_all [].
Proof. intros n sp []. Qed.
Lemma ca_cons x l : complete (fst x) -> complete_all l -> complete_all (x :: l).
Proof. destruct x; intros H1 H2 n' sp' [[= <- <-]|H]; eauto. Qed.
Lemma ca_app l1 l2 : complete_all l1 -> complete_all l2 -> complete_all (l1 ++ l2).
Proof. intros H1 H2 n sp H; apply in_app_or in H; destruct H; eauto. Qed.
Lemma ca_inv x l : complete_all (x :: l) -> complete (fst x) /\ complete_all l.
Proof. intros H; split; [destruct x; eapply H; left; eauto|]. intros n sp Hn; eapply H; right; eauto. Qed.
Lemma ca_app_inv l1 l2 : complete_all (l1 ++ l2) -> complete_all l1 /\ complete_all l2.
Proof. intros H; split; intros n sp Hn; eapply H; apply in_or_app; eauto. Qed.

Lemma is_expression_spec n :
  is_expression n = true <-> (~ no_value n /\ forall v, n <> NReturn v).
Proof.
  split.
  - destruct n; cbn; intros H; try discriminate H; split; try tauto; discriminate.
  - intros [H1 H2]. destruct n; cbn in *; auto; try tauto. exfalso; eapply H2; reflexivity.
Qed.

(** What [settle] does to one body. *)
Definition settle_body (sp : span) : list nodeS -> list nodeS :=
  fix body (l : list nodeS) : list nodeS :=
    match l with
    | [] => [(NLiteral LNone, sp)]
    | (x, xs) :: t =>
        match t with
        | [] => match x with
                | NReturn _ => l
                | _ => if is_expression x then [(settle x xs, xs)]
                       else [(x, xs); (NLiteral LNone, xs)]
                end
        | _ :: _ => (x, xs) :: body t
        end
    end.
Lemma settle_eq n sp :
  settle n sp =
  match n with
  | NBlock b => NBlock (settle_body sp b)
  | NConditional c t e => NConditional c (settle_body sp t)
                            (match e with Some b => Some (settle_body sp b) | None => None end)
  | NFor v i b => NFor v i (settle_body sp b)
  | NMultiFor v i b => NMultiFor v i (settle_body sp b)
  | NWhile c b => NWhile c (settle_body sp b)
  | NContext f a v b => NContext f a v (settle_body sp b)
  | _ => n
  end.
Proof. destruct n; reflexivity. Qed.

Lemma settle_body_eq sp x xs t :
  settle_body sp ((x, xs) :: t) =
  match t with
  | [] => match x with
          | NReturn _ => (x, xs) :: t
          | _ => if is_expression x then [(settle x xs, xs)] else [(x, xs); (NLiteral LNone, xs)]
          end
  | _ :: _ => (x, xs) :: settle_body sp t
  end.
Proof. destruct t; reflexivity. Qed.

Lemma good_tail f x y t : good_body f (x :: y :: t) -> good_body f (y :: t).
Proof.
  intros (l & n & sp & E & H). destruct l as [|z l]; cbn in E; [discriminate|].
  exists l, n, sp. injection E as _ E; auto.
Qed.
Lemma good_last f x xs : good_body f [(x, xs)] -> if f then exists v, x = NReturn v else ~ no_value x.
Proof.
  intros (l & n & sp & E & H). destruct l as [|z l]; cbn in E; [injection E as -> ->; auto|].
  destruct l; discriminate.
Qed.

(** A complete tree is left alone. *)
Lemma settle_body_complete sp l :
  Forall (fun e : nodeS => forall sp, complete (fst e) -> settle (fst e) sp = fst e) l ->
  complete_all l -> good_body false l -> settle_body sp l = l.
Proof.
  intros IH. induction IH as [|[x xs] t IHx _ IHt]; intros Hc Hg.
  - destruct Hg as (l & ? & ? & E & _); destruct l; discriminate.
  - rewrite settle_body_eq by auto. apply ca_inv in Hc as [Hx Ht]. destruct t as [|y t].
    + pose proof (good_last _ _ _ Hg) as G. cbn iota in G.
      destruct (is_expression x) eqn:Ex.
      * cbn [fst] in IHx, Hx. rewrite (IHx xs Hx). destruct x; auto.
      * destruct x; cbn in Ex, G; try discriminate; try tauto.
    + f_equal. apply IHt; auto. eapply good_tail; eauto.
Qed.
Lemma settle_complete n : forall sp, complete n -> settle n sp = n.
Proof.
  induction n using node_ind'; intros sp0 Hc; rewrite settle_eq; auto;
    apply complete_inv in Hc as [Hb Hch]; cbn [bodies children opt_list] in Hb, Hch.
  - f_equal. apply settle_body_complete; auto. apply Hb; left; auto.
  - apply ca_inv in Hch as [_ Hch]; apply ca_app_inv in Hch as [Ht He]. f_equal.
    + apply settle_body_complete; auto. apply Hb; left; auto.
    + destruct o; auto. f_equal. apply settle_body_complete; auto. apply Hb; right; left; auto.
  - f_equal. apply settle_body_complete; auto. 2: apply Hb; left; auto. apply ca_inv in Hch as [_ Hch]; auto.
  - f_equal. apply settle_body_complete; auto. 2: apply Hb; left; auto. apply ca_inv in Hch as [_ Hch]; auto.
  - f_equal. apply settle_body_complete; auto. 2: apply Hb; left; auto. apply ca_inv in Hch as [_ Hch]; auto.
  - f_equal. apply settle_body_complete; auto. 2: apply Hb; left; auto. apply ca_app_inv in Hch as [_ Hch]; auto.
Qed.

Lemma implicit_app f sp l x xs :
  add_implicit_none (l ++ [(x, xs)]) sp f = l ++ add_implicit_none [(x, xs)] sp f.
Proof.
  induction l as [|[y ys] l IH]; [reflexivity|]. cbn [app add_implicit_none].
  destruct (l ++ [(x, xs)]) eqn:E; [destruct l; discriminate|]. rewrite IH. reflexivity.
Qed.

(** [add_implicit_none] on a body whose own bodies are complete. *)
Lemma implicit_finished f sp b :
  complete_all b -> finished f sp b (add_implicit_none b sp f).
Proof.
  intros Hc. destruct b as [|[x xs] l _] using rev_ind; [destruct f; apply fi_empty|].
  apply ca_app_inv in Hc as [_ Hc]; apply ca_inv in Hc as [Hx _]; cbn [fst] in Hx.
  rewrite implicit_app. cbn [add_implicit_none].
  destruct (is_expression x) eqn:Ex.
  - rewrite settle_complete by auto.
    pose proof Ex as Ex'. apply is_expression_spec in Ex' as [N1 N2].
    pose proof (fi_value f sp l x xs N1 N2) as G.
    destruct x; try exact G; exfalso; eapply N2; reflexivity.
  - destruct x; cbn in Ex; try discriminate;
      try (apply (fi_return f sp l)); apply (fi_statement f sp l); cbn; auto.
Qed.

Lemma complete_literal l : complete (NLiteral l).
Proof. apply complete_intro; [intros ? ? []|apply ca_nil]. Qed.
Lemma complete_return v : match v with Some e => complete (fst e) | None => True end -> complete (NReturn v).
Proof.
  intros H. apply complete_intro; [intros ? ? []|]. destruct v; cbn; [|apply ca_nil].
  apply ca_cons; auto. apply ca_nil.
Qed.

Lemma finished_good f sp b b' : complete_all b -> finished f sp b b' -> good_body f b' /\ complete_all b'.
Proof.
  intros Hc Hf. destruct Hf as [|l v sp'|l n sp' Hn|l n sp' Hn Hr].
  - split.
    + exists [], (nothing f), sp. split; auto. destruct f; cbn; eauto.
    + apply ca_cons; [|apply ca_nil]. destruct f; [apply complete_return; auto|apply complete_literal].
  - split; auto. exists l, (NReturn v), sp'. split; auto. destruct f; cbn; eauto.
  - apply ca_app_inv in Hc as [Hl Hx]. apply ca_inv in Hx as [Hx _]. split.
    + exists (l ++ [(n, sp')]), (nothing f), sp'. rewrite <- app_assoc. split; auto. destruct f; cbn; eauto.
    + apply ca_app; auto. apply ca_cons; auto. apply ca_cons; [|apply ca_nil].
      destruct f; [apply complete_return; auto|apply complete_literal].
  - apply ca_app_inv in Hc as [Hl Hx]. apply ca_inv in Hx as [Hx _]. split.
    + exists l, (if f then NReturn (Some (n, sp')) else n), sp'. split; auto. destruct f; cbn; eauto.
    + apply ca_app; auto. apply ca_cons; [|apply ca_nil]. destruct f; cbn; auto.
      apply complete_return; auto.
Qed.

(** ** What a parser can return *)
Definition yields {A} (Q : A -> Prop) (p : P A) : Prop := forall i a i', p i = PMatch a i' -> Q a.
Definition yany {A} : A -> Prop := fun _ => True.
Lemma y_any {A} (p : P A) : yields yany p.
Proof. intros i a i' _; exact Logic.I. Qed.
Lemma y_weak {A} (Q : A -> Prop) (p : P A) : (forall a, Q a) -> yields Q p.
Proof. intros H i a i' _; auto. Qed.
Lemma y_ret {A} (Q : A -> Prop) a : Q a -> yields Q (pret a).
Proof. intros H i x i' [= <- <-]; auto. Qed.
Lemma y_fail {A} (Q : A -> Prop) : yields Q pfail.
Proof. intros i x i' H; discriminate. Qed.
Lemma y_bind {A B} (R : A -> Prop) (Q : B -> Prop) p (k : A -> P B) :
  yields R p -> (forall a, R a -> yields Q (k a)) -> yields Q (pbind p k).
Proof.
  intros H1 H2 i b i' E. unfold pbind in E. destruct (p i) as [a j| |] eqn:Ep; try discriminate.
  eapply H2; eauto.
Qed.
Lemma y_seq {A B} (Q : B -> Prop) (p : P A) (k : A -> P B) :
  (forall a, yields Q (k a)) -> yields Q (pbind p k).
Proof. intros H. eapply y_bind; [apply y_any|auto]. Qed.
Lemma y_alt {A} (Q : A -> Prop) (p q : P A) : yields Q p -> yields Q q -> yields Q (palt p q).
Proof.
  intros H1 H2 i a i' E. unfold palt in E. destruct (p i) eqn:Ep; try discriminate; eauto.
  injection E as -> ->; eauto.
Qed.
Definition on_opt {A} (Q : A -> Prop) (o : option A) : Prop :=
  match o with Some a => Q a | None => True end.
Lemma y_opt {A} (Q : A -> Prop) (p : P A) : yields Q p -> yields (on_opt Q) (popt p).
Proof.
  intros H i a i' E. unfold popt in E. destruct (p i) eqn:Ep; try discriminate; injection E as <- <-; cbn; eauto.
Qed.
Lemma y_star {A} (Q : A -> Prop) (p : P A) : yields Q p -> yields (Forall Q) (pstar p).
Proof.
  intros H i. unfold pstar. generalize (S (length (snd i))) as n. intros n; revert i.
  induction n as [|n IH]; intros i a i' E; cbn [pstar_go] in E; [discriminate|].
  destruct (p i) as [x j| |] eqn:Ep; try discriminate; [|injection E as <- <-; auto].
  destruct (pstar_go n p j) as [l k| |] eqn:El; try discriminate. injection E as <- <-.
  constructor; eauto.
Qed.
Lemma y_sep1 {A B} (Q : A -> Prop) (p : P A) (sep : P B) :
  yields Q p -> yields (Forall Q) (psep1 p sep).
Proof.
  intros H. unfold psep1. eapply y_bind; [exact H|intros a Ha].
  eapply y_bind; [apply (y_star Q); apply y_seq; auto|intros l Hl]. apply y_ret; auto.
Qed.
Lemma y_sep {A B} (Q : A -> Prop) (p : P A) (sep : P B) :
  yields Q p -> yields (Forall Q) (psep p sep).
Proof. intros H. apply y_alt; [apply y_sep1; auto|apply y_ret; auto]. Qed.
Lemma y_commasep {A} (Q : A -> Prop) (p : P A) : yields Q p -> yields (Forall Q) (commasep p).
Proof.
  intros H. unfold commasep. apply y_seq; intros _. eapply y_bind.
  - apply (y_sep Q). apply y_seq; intros _. eapply y_bind; [exact H|intros a Ha].
    apply y_seq; intros _; apply y_ret; auto.
  - intros l Hl. apply y_seq; intros _. apply y_seq; intros _. apply y_ret; auto.
Qed.
Lemma y_first {A} (Q : A -> Prop) (l : list (P A)) : Forall (yields Q) l -> yields Q (pfirst l).
Proof. induction 1; cbn; [apply y_fail|apply y_alt; auto]. Qed.
Lemma y_imp {A} (Q R : A -> Prop) p : (forall a, Q a -> R a) -> yields Q p -> yields R p.
Proof. intros H1 H2 i a i' E; eauto. Qed.

(** ** Every tree the grammar builds is complete *)
Lemma ca_Forall l : Forall (fun e : nodeS => complete (fst e)) l <-> complete_all l.
Proof.
  rewrite Forall_forall; split; intros H.
  - intros n sp Hn. apply (H (n, sp)); auto.
  - intros [n sp] Hn. eapply H; eauto.
Qed.

Definition body_ok (f : bool) (b : list nodeS) : Prop := good_body f b /\ complete_all b.
Definition nS (e : nodeS) : Prop := complete (fst e).

Ltac cin := apply complete_intro; cbn [bodies children opt_list];
  [ let f := fresh in let b := fresh in let H := fresh in
    intros f b H; cbn [In app] in H;
    repeat (destruct H as [H|H]; [injection H as <- <-; auto|]); try contradiction
  | repeat first [apply ca_nil | apply ca_cons; [auto|] | apply ca_app | assumption ] ].

Section Grammar.
Context (o : oracle) (id : nat) (climb : nat -> P nodeS) (Hclimb : forall k, yields nS (climb k)).

Lemma y_block f : yields (body_ok f) (r_block id climb f).
Proof using Hclimb.
  unfold r_block. apply y_seq; intros s. do 2 (apply y_seq; intros _).
  eapply y_bind; [apply (y_sep nS); apply Hclimb|intros l Hl].
  do 2 (apply y_seq; intros _). apply y_seq; intros e. apply y_ret.
  assert (Hc : complete_all l) by (apply ca_Forall; exact Hl).
  eapply finished_good; [exact Hc|]. apply implicit_finished; auto.
Qed.

Lemma y_if fuel : yields (fun n => complete n /\ ~ no_value n) (r_if id climb fuel).
Proof using Hclimb.
  induction fuel as [|fuel IH]; cbn [r_if]; [intros i a i' E; discriminate|].
  do 3 (apply y_seq; intros _). eapply y_bind; [apply Hclimb|intros c Hc].
  apply y_seq; intros _. eapply y_bind; [apply y_block|intros t [Ht1 Ht2]].
  apply y_seq; intros _. eapply y_bind.
  - apply (y_opt (body_ok false)). do 2 (apply y_seq; intros _). apply y_alt; [apply y_block|].
    apply y_seq; intros s. apply y_seq; intros _. eapply y_bind; [apply IH|intros x [Hx1 Hx2]].
    apply y_seq; intros _. apply y_seq; intros e. apply y_ret. split.
    + exists [], x, (mkSpan s e id). split; auto.
    + apply ca_cons; auto. apply ca_nil.
  - intros e He. apply y_seq; intros _. apply y_ret. split; [|auto].
    destruct e as [e|]; cbn in He; [destruct He|]; cin.
Qed.

Lemma y_args : yields complete_all (args_ climb).
Proof using Hclimb.
  unfold args_. do 2 (apply y_seq; intros _). eapply y_bind; [apply (y_commasep nS); apply Hclimb|intros l Hl].
  do 2 (apply y_seq; intros _). apply y_ret. apply ca_Forall; exact Hl.
Qed.

Lemma y_switch : yields complete (r_switch id climb).
Proof using Hclimb.
  unfold r_switch. do 3 (apply y_seq; intros _). eapply y_bind; [apply Hclimb|intros v Hv].
  do 3 (apply y_seq; intros _). eapply y_bind.
  - apply (y_sep (fun vc : list nodeS * list nodeS => complete_all (fst vc) /\ body_ok false (snd vc))).
    unfold r_case. do 3 (apply y_seq; intros _).
    eapply y_bind; [apply (y_sep1 nS); apply Hclimb|intros l Hl]. apply y_seq; intros _.
    eapply y_bind; [apply y_block|intros b Hb]. apply y_seq; intros _. apply y_ret. split; auto.
    apply ca_Forall; exact Hl.
  - intros cs Hcs. apply y_seq; intros _. eapply y_bind.
    + apply (y_opt (body_ok false)). unfold r_default. do 3 (apply y_seq; intros _).
      eapply y_bind; [apply y_block|intros b Hb]. apply y_seq; intros _. apply y_ret; auto.
    + intros d Hd. do 3 (apply y_seq; intros _). apply y_ret. apply complete_intro; cbn [bodies children].
      * intros f b Hin. apply in_app_or in Hin as [Hin|Hin].
        -- apply in_map_iff in Hin as ([x b'] & [= <- <-] & Hin). cbn [snd].
           apply in_flat_map in Hin as (vc & H1 & H2). apply in_map_iff in H2 as (y & [= <- <-] & H2).
           rewrite Forall_forall in Hcs. apply Hcs in H1. apply H1.
        -- destruct d as [d|]; cbn in Hin, Hd; [|contradiction]. destruct Hin as [[= <- <-]|[]]. apply Hd.
      * apply ca_cons; auto. apply ca_app.
        -- apply ca_Forall. rewrite Forall_forall. intros e He. apply in_flat_map in He as ([x b] & H1 & H2).
           apply in_flat_map in H1 as (vc & H3 & H4). apply in_map_iff in H4 as (y & [= <- <-] & H4).
           rewrite Forall_forall in Hcs. apply Hcs in H3 as [H5 [H6 H7]].
           destruct H2 as [H2|H2]; cbn [fst snd] in H2; [subst e; destruct y|destruct e]; eauto.
        -- destruct d as [d|]; cbn; [apply Hd|apply ca_nil].
Qed.

Lemma with_op_complete i f n : complete (fst n) -> complete (fst (with_op i f n)).
Proof using.
  intros H. destruct f; cbn; auto. cin. cbn [fst]. apply complete_intro; cbn; [tauto|apply ca_nil].
Qed.

Lemma y_atoms fuel : Forall (yields complete) (prefix_atoms o id climb fuel).
Proof using Hclimb.
  unfold prefix_atoms. apply Forall_app; split; [|apply Forall_app; split].
  - repeat constructor.
    + do 2 (apply y_seq; intros _). eapply y_bind; [apply (y_opt nS); apply Hclimb|intros e He].
      apply y_ret. apply complete_return. destruct e; auto.
    + do 2 (apply y_seq; intros _). apply y_seq; intros i. do 3 (apply y_seq; intros _).
      eapply y_bind; [apply Hclimb|intros n Hn]. apply y_ret. cin.
    + do 2 (apply y_seq; intros _). apply y_seq; intros i. apply y_seq; intros _. apply y_seq; intros f.
      do 2 (apply y_seq; intros _). eapply y_bind; [apply Hclimb|intros n Hn]. apply y_ret. cin.
      apply with_op_complete; auto.
    + do 2 (apply y_seq; intros _). apply y_seq; intros i. do 3 (apply y_seq; intros _).
      eapply y_bind; [apply Hclimb|intros n Hn]. apply y_ret. cin.
    + apply y_seq; intros i. apply y_seq; intros _. apply y_seq; intros f.
      do 2 (apply y_seq; intros _). eapply y_bind; [apply Hclimb|intros n Hn]. apply y_ret. cin.
      apply with_op_complete; auto.
    + do 2 (apply y_seq; intros _). apply y_seq; intros nm. do 3 (apply y_seq; intros _).
      apply y_seq; intros a. do 3 (apply y_seq; intros _). eapply y_bind; [apply y_block|intros b [Hb1 Hb2]].
      apply y_ret. destruct nm; cin.
    + eapply y_imp; [|apply y_if]. intros a [Ha _]; exact Ha.
    + apply y_switch.
    + do 2 (apply y_seq; intros _). eapply y_bind; [apply Hclimb|intros c Hc]. apply y_seq; intros _.
      eapply y_bind; [apply y_block|intros b [Hb1 Hb2]]. apply y_ret. cin.
    + do 2 (apply y_seq; intros _). apply y_seq; intros v. do 3 (apply y_seq; intros _).
      eapply y_bind; [apply Hclimb|intros c Hc]. apply y_seq; intros _.
      eapply y_bind; [apply y_block|intros b [Hb1 Hb2]]. apply y_ret. cin.
    + do 2 (apply y_seq; intros _). apply y_seq; intros v. do 3 (apply y_seq; intros _).
      eapply y_bind; [apply Hclimb|intros c Hc]. apply y_seq; intros _.
      eapply y_bind; [apply y_block|intros b [Hb1 Hb2]]. apply y_ret. cin.
    + do 2 (apply y_seq; intros _). apply y_seq; intros nm. apply y_seq; intros _.
      eapply y_bind; [apply y_args|intros a Ha]. apply y_seq; intros v. apply y_seq; intros _.
      eapply y_bind; [apply y_block|intros b [Hb1 Hb2]]. apply y_ret. cin.
    + do 2 (apply y_seq; intros _). apply y_seq; intros s. apply y_ret. cin.
    + apply y_seq; intros s. do 3 (apply y_seq; intros _). apply y_seq; intros e. apply y_ret.
      apply complete_literal.
  - apply Forall_forall. intros p Hp. apply in_map_iff in Hp as (x & <- & _).
    do 2 (apply y_seq; intros _). eapply y_bind; [apply Hclimb|intros n Hn]. apply y_ret. cin.
  - repeat constructor.
    + apply y_seq; intros l. apply y_ret, complete_literal.
    + do 2 (apply y_seq; intros _). eapply y_bind; [apply (y_commasep nS); apply Hclimb|intros l Hl].
      do 2 (apply y_seq; intros _). apply y_ret. apply ca_Forall in Hl. cin.
    + do 2 (apply y_seq; intros _). eapply y_bind; [apply Hclimb|intros a Ha]. do 3 (apply y_seq; intros _).
      eapply y_bind; [apply Hclimb|intros b Hb]. do 2 (apply y_seq; intros _). apply y_ret. cin.
    + do 2 (apply y_seq; intros _). apply y_seq; intros l. do 3 (apply y_seq; intros _).
      apply y_seq; intros r. do 2 (apply y_seq; intros _). apply y_ret, complete_literal.
    + apply y_seq; intros _. apply y_seq; intros i. apply y_seq; intros _.
      eapply y_bind; [apply y_args|intros a Ha]. apply y_ret. cin.
    + apply y_seq; intros i. apply y_ret. cin.
    + do 2 (apply y_seq; intros _). eapply y_bind; [apply Hclimb|intros n Hn]. do 2 (apply y_seq; intros _).
      apply y_ret. exact Hn.
    + eapply y_bind; [apply y_block|intros b [Hb1 Hb2]]. apply y_ret. cin.
Qed.

Lemma y_posts min lhs : complete (fst lhs) -> Forall (yields complete) (posts climb min lhs).
Proof using Hclimb.
  intros Hl. unfold posts. apply Forall_app; split.
  - apply Forall_forall. intros p Hp. apply in_map_iff in Hp as (x & <- & _).
    destruct (min <=? fst x); [|apply y_fail]. do 3 (apply y_seq; intros _).
    eapply y_bind; [apply Hclimb|intros n Hn]. apply y_ret. destruct (snd (snd x)); cin.
  - repeat constructor.
    + apply y_seq; intros _. eapply y_bind; [apply y_args|intros a Ha]. apply y_ret. cin.
    + do 3 (apply y_seq; intros _). eapply y_bind; [apply Hclimb|intros n Hn]. do 2 (apply y_seq; intros _).
      apply y_ret. cin.
Qed.

Lemma y_post_loop n min start : forall lhs, nS lhs -> yields nS (post_loop id climb n min start lhs).
Proof using Hclimb.
  induction n as [|n IH]; intros lhs Hl i a i' E; cbn [post_loop] in E; [discriminate|].
  destruct (pfirst (posts climb min lhs) i) as [x j| |] eqn:Ep; try discriminate.
  - eapply IH; [|exact E]. unfold nS; cbn [fst].
    eapply (y_first complete); [apply y_posts; exact Hl|exact Ep].
  - injection E as <- <-; auto.
Qed.
End Grammar.

Lemma y_climb o id fuel : forall min, yields nS (climb o id fuel min).
Proof.
  induction fuel as [|fuel IH]; intros min i a i' E; cbn [climb] in E; [discriminate|].
  destruct (pfirst (prefix_atoms o id (climb o id fuel) fuel) i) as [x j| |] eqn:Ep; try discriminate.
  eapply y_post_loop; [exact IH| |exact E]. unfold nS; cbn [fst].
  eapply (y_first complete); [apply y_atoms; exact IH|exact Ep].
Qed.

Lemma y_code o id fuel : yields (body_ok false) (r_code o id fuel).
Proof.
  unfold r_code. apply y_seq; intros _. apply y_seq; intros s.
  eapply y_bind; [apply (y_opt (Forall nS)); apply (y_sep nS); apply y_climb|intros c Hc].
  apply y_seq; intros e. apply y_seq; intros _. apply y_ret.
  assert (Hc' : complete_all (match c with Some c => c | None => [] end)).
  { destruct c; [apply ca_Forall; exact Hc|apply ca_nil]. }
  eapply finished_good; [exact Hc'|]. apply implicit_finished; auto.
Qed.

Lemma parse_code_complete o fuel text id ast i :
  parse_code o fuel text id = PMatch ast i -> good_body false ast /\ complete_all ast.
Proof.
  unfold parse_code, whole. destruct (r_code o id fuel (0, text)) as [a j| |] eqn:E; try discriminate.
  destruct (snd j); [|discriminate]. intros [= <- <-]. eapply y_code; eauto.
Qed.
