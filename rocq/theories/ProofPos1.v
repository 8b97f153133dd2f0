(** Every position the parser puts into a tree lies in the text (C92). *)
From Verif Require Import Base Float NumText Ast Parse Includes SpecArith SpecParse SpecPos ProofParse.

(** ** Moving through the text *)
Definition mv (i j : inp) : Prop := exists c, snd i = c ++ snd j /\ fst j = fst i + N.to_nat (slen c).
Lemma slen_app a b : slen (a ++ b) = (slen a + slen b)%N.
Proof. induction a as [|c a IH]; cbn [slen app fold_right]; [reflexivity|]. unfold slen in *. rewrite IH. lia. Qed.
Lemma mv_refl i : mv i i. Proof. exists []. split; [reflexivity|cbn; lia]. Qed.
Lemma mv_trans i j k : mv i j -> mv j k -> mv i k.
Proof.
  intros (c & E1 & E2) (d & E3 & E4). exists (c ++ d). rewrite slen_app, <- app_assoc. split; [congruence|lia].
Qed.
Definition mvp {A} (p : P A) : Prop := forall i a i', p i = PMatch a i' -> mv i i'.

Lemma mvp_ret {A} (a : A) : mvp (pret a). Proof. intros i x j [= <- <-]. apply mv_refl. Qed.
Lemma mvp_fail {A} : mvp (pfail : P A). Proof. intros i x j H. discriminate. Qed.
Lemma mvp_bind {A B} (p : P A) (k : A -> P B) : mvp p -> (forall a, mvp (k a)) -> mvp (pbind p k).
Proof.
  intros H1 H2 i b j E. unfold pbind in E. destruct (p i) as [a i1| |] eqn:Ep; try discriminate.
  eapply mv_trans; [eapply H1|eapply H2]; eauto.
Qed.
Lemma mvp_alt {A} (p q : P A) : mvp p -> mvp q -> mvp (palt p q).
Proof.
  intros H1 H2 i a j E. unfold palt in E. destruct (p i) eqn:Ep; try discriminate; [|eauto].
  injection E as -> ->. eauto.
Qed.
Lemma mvp_opt {A} (p : P A) : mvp p -> mvp (popt p).
Proof.
  intros H i a j E. unfold popt in E. destruct (p i) eqn:Ep; try discriminate; injection E as <- <-; [eauto|apply mv_refl].
Qed.
Lemma mvp_not {A} (p : P A) : mvp (pnot p).
Proof. intros i a j E. unfold pnot in E. destruct (p i); try discriminate. injection E as <- <-. apply mv_refl. Qed.
Lemma mvp_pos : mvp ppos. Proof. intros i a j [= <- <-]. apply mv_refl. Qed.
Lemma mvp_char f : mvp (pchar f).
Proof.
  intros [n s] a j E. unfold pchar in E. cbn [fst snd] in E. destruct s as [|c t]; [discriminate|]. destruct (f c); [|discriminate].
  injection E as <- <-. exists [c]. split; [reflexivity|]. cbn [fst slen fold_right]. lia.
Qed.
Lemma mvp_lit s : mvp (plit s).
Proof. induction s; cbn [plit]; [apply mvp_ret|]. apply mvp_bind; [apply mvp_char|auto]. Qed.
Lemma run_go_mv f s : forall n r j, prun_go f n s = (r, j) -> mv (n, s) j.
Proof.
  induction s as [|c t IH]; intros n r j E; cbn [prun_go] in E.
  - injection E as <- <-. apply mv_refl.
  - destruct (f c); [|injection E as <- <-; apply mv_refl].
    destruct (prun_go f _ t) as [r' j'] eqn:E1. injection E as <- <-. apply IH in E1.
    eapply mv_trans; [|exact E1]. exists [c]. split; [reflexivity|]. cbn [fst slen fold_right]. lia.
Qed.
Lemma mvp_run f : mvp (prun f).
Proof.
  intros [n s] a j E. unfold prun in E. cbn [fst snd] in E. destruct (prun_go f n s) as [r k] eqn:E1. injection E as <- <-.
  eapply run_go_mv; eauto.
Qed.
Lemma mvp_run1 f : mvp (prun1 f).
Proof. apply mvp_bind; [apply mvp_run|]. intros []; [apply mvp_fail|apply mvp_ret]. Qed.
Lemma mvp_star {A} (p : P A) : mvp p -> mvp (pstar p).
Proof.
  intros H i. unfold pstar. generalize (S (length (snd i))) as n. intros n; revert i.
  induction n as [|n IH]; intros i a i' E; cbn [pstar_go] in E; [discriminate|].
  destruct (p i) as [x j| |] eqn:Ep; try discriminate; [|injection E as <- <-; apply mv_refl].
  destruct (pstar_go n p j) as [l k| |] eqn:El; try discriminate. injection E as <- <-.
  eapply mv_trans; eauto.
Qed.
Lemma mvp_sep1 {A B} (p : P A) (sep : P B) : mvp p -> mvp sep -> mvp (psep1 p sep).
Proof.
  intros H1 H2. apply mvp_bind; [exact H1|intros a]. apply mvp_bind; [|intros; apply mvp_ret].
  apply mvp_star. apply mvp_bind; auto.
Qed.
Lemma mvp_sep {A B} (p : P A) (sep : P B) : mvp p -> mvp sep -> mvp (psep p sep).
Proof. intros H1 H2. apply mvp_alt; [now apply mvp_sep1|apply mvp_ret]. Qed.

Ltac mvs := repeat (intros; match goal with
  | |- mvp (pret _) => apply mvp_ret
  | |- mvp pfail => apply mvp_fail
  | |- mvp (pbind _ _) => apply mvp_bind
  | |- mvp (palt _ _) => apply mvp_alt
  | |- mvp (popt _) => apply mvp_opt
  | |- mvp (pnot _) => apply mvp_not
  | |- mvp ppos => apply mvp_pos
  | |- mvp (pchar _) => apply mvp_char
  | |- mvp (plit _) => apply mvp_lit
  | |- mvp (prun _) => apply mvp_run
  | |- mvp (prun1 _) => apply mvp_run1
  | |- mvp (pstar _) => apply mvp_star
  | |- mvp (psep _ _) => apply mvp_sep
  | |- mvp (psep1 _ _) => apply mvp_sep1
  | |- mvp (if ?b then _ else _) => destruct b
  | |- mvp (match ?x with _ => _ end) => destruct x
  | |- mvp _ => first [assumption | solve [auto with mvdb]]
  end).
Create HintDb mvdb.
Lemma mvp_TERM : mvp r_TERM. Proof. unfold r_TERM. mvs. Qed.
#[global] Hint Resolve mvp_TERM : mvdb.
Lemma mvp_COMMENT : mvp r_COMMENT. Proof. unfold r_COMMENT. mvs. Qed.
#[global] Hint Resolve mvp_COMMENT : mvdb.
Lemma mvp_TERMINATOR : mvp r_TERMINATOR. Proof. unfold r_TERMINATOR. mvs. Qed.
#[global] Hint Resolve mvp_TERMINATOR : mvdb.
Lemma mvp_WHITESPACE : mvp r_WHITESPACE. Proof. unfold r_WHITESPACE. mvs. Qed.
#[global] Hint Resolve mvp_WHITESPACE : mvdb.
Lemma mvp_ws : mvp ws_. Proof. unfold ws_. mvs. Qed.
Lemma mvp_ws1 : mvp ws1. Proof. unfold ws1. cbv zeta. mvs. Qed.
Lemma mvp_ws0 : mvp ws0. Proof. unfold ws0. mvs. Qed.
#[global] Hint Resolve mvp_ws mvp_ws1 mvp_ws0 : mvdb.
Lemma mvp_kw s : mvp (kw s). Proof. unfold kw. mvs. Qed.
Lemma mvp_IDENT : mvp r_IDENT. Proof. unfold r_IDENT. mvs. Qed.
Lemma mvp_int f : mvp (r_int f). Proof. unfold r_int. mvs. Qed.
Lemma mvp_INT32 : mvp r_INT32. Proof. apply mvp_int. Qed.
Lemma mvp_STRING : mvp r_STRING. Proof. unfold r_STRING. mvs. Qed.
Lemma mvp_op : mvp r_op. Proof. unfold r_op. mvs. Qed.
Lemma mvp_commasep {A} (p : P A) : mvp p -> mvp (commasep p). Proof. intros H. unfold commasep. mvs. Qed.
#[global] Hint Resolve mvp_kw mvp_IDENT mvp_int mvp_INT32 mvp_STRING mvp_op mvp_commasep : mvdb.
Lemma mvp_literal o fuel : mvp (r_literal o fuel).
Proof.
  induction fuel as [|fuel IH]; cbn [r_literal]; [intros i a j E; discriminate|].
  unfold r_HEX, r_FLOAT, r_INT. cbv zeta. mvs.
Qed.
#[global] Hint Resolve mvp_literal : mvdb.

(** ** Positions *)
Section Text.
Context (text : rstring) (id : nat).

Definition here (sp : span) : Prop := within text sp /\ sp_src sp = id.
Definition atp (i : inp) : Prop := exists a, text = a ++ snd i /\ fst i = N.to_nat (slen a).
Lemma atp_mv i j : atp i -> mv i j -> atp j.
Proof using. intros (a & E1 & E2) (c & E3 & E4). exists (a ++ c). rewrite slen_app, <- app_assoc. split; [congruence|lia]. Qed.
Lemma span_here i j : atp i -> mv i j -> here (mkSpan (fst i) (fst j) id).
Proof using.
  intros (a & E1 & E2) (c & E3 & E4). split; [|reflexivity]. exists a, c, (snd j). rewrite slen_app. cbn [sp_start sp_end].
  repeat split; [congruence|lia|lia].
Qed.

Definition okn (n : node) : Prop := forall d, inside d n ->
  Forall (fun e : nodeS => here (snd e)) (children d) /\ Forall (fun x : spanned rstring => here (snd x)) (names_of d).
Definition okS (e : nodeS) : Prop := here (snd e) /\ okn (fst e).
Definition okl (l : list nodeS) : Prop := Forall okS l.
Definition okx (x : spanned rstring) : Prop := here (snd x).
Lemma okn_intro n : okl (children n) -> Forall okx (names_of n) -> okn n.
Proof using.
  intros H1 H2 d Hd. inversion Hd as [n'|n' c sp d' Hc Hi]; subst.
  - split; [|exact H2]. eapply Forall_impl; [|exact H1]. now intros a [].
  - unfold okl in H1. rewrite Forall_forall in H1. exact (proj2 (H1 _ Hc) _ Hi).
Qed.
Lemma finished_ok f sp b b' : here sp -> okl b -> finished f sp b b' -> okl b'.
Proof using.
  intros Hs Hb Hf.
  assert (N : okn (nothing f)) by (destruct f; apply okn_intro; constructor).
  destruct Hf.
  - constructor; [split; auto|constructor].
  - exact Hb.
  - apply Forall_app in Hb as [H1 H2]. apply Forall_app; split; [exact H1|]. inversion H2; subst.
    constructor; [assumption|]. constructor; [|constructor]. split; [|exact N].
    match goal with H : okS (n, sp') |- _ => exact (proj1 H) end.
  - apply Forall_app in Hb as [H1 H2]. apply Forall_app; split; [exact H1|]. inversion H2 as [|? ? H3 _]; subst.
    constructor; [|constructor]. destruct f; [|exact H3]. split; [exact (proj1 H3)|].
    apply okn_intro; [|constructor]. constructor; [exact H3|constructor].
Qed.

(** [J i0 Q p]: started behind [i0], [p] moves on and gives something with [Q]. *)
Definition J {A} (i0 : inp) (Q : A -> Prop) (p : P A) : Prop :=
  atp i0 -> forall i a i', mv i0 i -> p i = PMatch a i' -> mv i i' /\ Q a.
Lemma j_ret {A} i0 (Q : A -> Prop) a : Q a -> J i0 Q (pret a).
Proof using. intros H _ i x j _ [= <- <-]. split; [apply mv_refl|exact H]. Qed.
Lemma j_fail {A} i0 (Q : A -> Prop) : J i0 Q pfail.
Proof using. intros _ i x j _ H. discriminate. Qed.
Lemma j_any {A} i0 (p : P A) : mvp p -> J i0 yany p.
Proof using. intros H _ i a j _ E. split; [eauto|exact Logic.I]. Qed.
Lemma j_bind {A B} i0 (R : A -> Prop) (Q : B -> Prop) p (k : A -> P B) :
  J i0 R p -> (forall a, R a -> J i0 Q (k a)) -> J i0 Q (pbind p k).
Proof using.
  intros H1 H2 H0 i b j Hi E. unfold pbind in E. destruct (p i) as [a i1| |] eqn:Ep; try discriminate.
  destruct (H1 H0 _ _ _ Hi Ep) as [M R1]. destruct (H2 a R1 H0 _ _ _ (mv_trans _ _ _ Hi M) E) as [M2 Q2].
  split; [eapply mv_trans; eauto|exact Q2].
Qed.
Lemma j_seq {A B} i0 (Q : B -> Prop) (p : P A) (k : A -> P B) : mvp p -> (forall a, J i0 Q (k a)) -> J i0 Q (pbind p k).
Proof using. intros H1 H2. eapply j_bind; [apply j_any; exact H1|auto]. Qed.
Lemma j_pos {B} i0 (Q : B -> Prop) (k : nat -> P B) :
  (forall i1, mv i0 i1 -> atp i1 -> J i1 Q (k (fst i1))) -> J i0 Q (pbind ppos k).
Proof using.
  intros H H0 i b j Hi E. unfold pbind, ppos in E. apply (H i Hi (atp_mv _ _ H0 Hi) (atp_mv _ _ H0 Hi) _ _ _ (mv_refl i) E).
Qed.
Lemma j_alt {A} i0 (Q : A -> Prop) (p q : P A) : J i0 Q p -> J i0 Q q -> J i0 Q (palt p q).
Proof using.
  intros H1 H2 H0 i a j Hi E. unfold palt in E. destruct (p i) eqn:Ep; try discriminate; [|exact (H2 H0 _ _ _ Hi E)].
  injection E as -> ->. exact (H1 H0 _ _ _ Hi Ep).
Qed.
Lemma j_opt {A} i0 (Q : A -> Prop) (p : P A) : J i0 Q p -> J i0 (on_opt Q) (popt p).
Proof using.
  intros H H0 i a j Hi E. unfold popt in E. destruct (p i) eqn:Ep; try discriminate; injection E as <- <-.
  - exact (H H0 _ _ _ Hi Ep).
  - split; [apply mv_refl|exact Logic.I].
Qed.
Lemma j_star {A} i0 (Q : A -> Prop) (p : P A) : J i0 Q p -> J i0 (Forall Q) (pstar p).
Proof using.
  intros H H0 i. unfold pstar. generalize (S (length (snd i))) as n. intros n; revert i.
  induction n as [|n IH]; intros i a i' Hi E; cbn [pstar_go] in E; [discriminate|].
  destruct (p i) as [x j| |] eqn:Ep; try discriminate; [|injection E as <- <-; split; [apply mv_refl|constructor]].
  destruct (pstar_go n p j) as [l k| |] eqn:El; try discriminate. injection E as <- <-.
  destruct (H H0 _ _ _ Hi Ep) as [M1 Q1]. destruct (IH _ _ _ (mv_trans _ _ _ Hi M1) El) as [M2 Q2].
  split; [eapply mv_trans; eauto|constructor; auto].
Qed.
Lemma j_sep1 {A B} i0 (Q : A -> Prop) (p : P A) (sep : P B) : mvp sep -> J i0 Q p -> J i0 (Forall Q) (psep1 p sep).
Proof using.
  intros Hs H. unfold psep1. eapply j_bind; [exact H|intros a Ha].
  eapply j_bind; [apply (j_star i0 Q); apply j_seq; auto|intros l Hl]. apply j_ret; auto.
Qed.
Lemma j_sep {A B} i0 (Q : A -> Prop) (p : P A) (sep : P B) : mvp sep -> J i0 Q p -> J i0 (Forall Q) (psep p sep).
Proof using. intros Hs H. apply j_alt; [apply j_sep1; auto|apply j_ret; auto]. Qed.
Lemma j_item {A} i0 (Q : A -> Prop) (p : P A) : J i0 Q p -> J i0 Q (ws_ >> on y <- p; ws_ >> pret y).
Proof using.
  intros H. apply j_seq; [mvs|intros _]. eapply j_bind; [exact H|intros a Ha]. apply j_seq; [mvs|intros _]. now apply j_ret.
Qed.
Lemma j_commasep {A} i0 (Q : A -> Prop) (p : P A) : J i0 Q p -> J i0 (Forall Q) (commasep p).
Proof using.
  intros H. unfold commasep. apply j_seq; [mvs|intros _]. eapply j_bind; [apply (j_sep i0 Q); [mvs|now apply j_item]|intros l Hl].
  do 2 (apply j_seq; [mvs|intros _]). now apply j_ret.
Qed.
Lemma j_commasepp {A} i0 (Q : A -> Prop) (p : P A) : J i0 Q p -> J i0 (Forall Q) (commasepp p).
Proof using.
  intros H. unfold commasepp. apply j_seq; [mvs|intros _]. eapply j_bind; [apply (j_sep1 i0 Q); [mvs|now apply j_item]|intros l Hl].
  do 2 (apply j_seq; [mvs|intros _]). now apply j_ret.
Qed.
Lemma j_first {A} i0 (Q : A -> Prop) (l : list (P A)) : Forall (J i0 Q) l -> J i0 Q (pfirst l).
Proof using. induction 1; cbn; [apply j_fail|apply j_alt; auto]. Qed.
Lemma j_sp_of i0 (p : P rstring) : mvp p -> J i0 okx (sp_of id p).
Proof using.
  intros H. unfold sp_of. apply j_pos; intros i1 M1 A1. apply j_seq; [exact H|intros n].
  apply j_pos; intros i2 M2 A2. apply j_ret. apply span_here; auto.
Qed.
Lemma j_ident i0 : J i0 okx (ident id). Proof using. apply j_sp_of. mvs. Qed.

Lemma okl_app a b : okl a -> okl b -> okl (a ++ b).
Proof using. intros. now apply Forall_app. Qed.

Section Grammar.
Context (o : oracle) (climb : nat -> P nodeS) (Hcomplete : forall k, yields nS (climb k))
        (Hclimb : forall i0 k, J i0 okS (climb k)).

Lemma j_both i0 k : J i0 (fun e => nS e /\ okS e) (climb k).
Proof using Hclimb Hcomplete.
  intros H0 i a i' Hi E. destruct (Hclimb i0 k H0 _ _ _ Hi E). split; [assumption|]. split; [eapply Hcomplete; eauto|assumption].
Qed.
Lemma done_ok f sp l : here sp -> Forall (fun e => nS e /\ okS e) l -> okl (add_implicit_none l sp f).
Proof using.
  intros Hs Hl. eapply (finished_ok f sp); [exact Hs| |apply implicit_finished].
  - eapply Forall_impl; [|exact Hl]. now intros a [_ H].
  - apply ca_Forall. eapply Forall_impl; [|exact Hl]. now intros a [H _].
Qed.

Ltac fin := repeat match goal with
  | |- okn _ => apply okn_intro; cbn [children names_of var_names opt_list fst snd]
  | |- okl [] => constructor
  | |- okl (_ :: _) => constructor
  | |- okl (_ ++ _) => apply okl_app
  | |- Forall _ [] => constructor
  | |- Forall okx (_ :: _) => constructor
  | |- Forall okS (_ :: _) => constructor
  | |- Forall okS (_ ++ _) => apply okl_app
  | |- okl _ => assumption
  | |- Forall _ _ => assumption
  | |- okS _ => assumption
  | |- okx _ => assumption
  end.
Ltac js := lazymatch goal with
  | |- J _ _ (pret _) => apply j_ret
  | |- J _ _ pfail => apply j_fail
  | |- J _ _ (pbind ppos _) => apply j_pos; intros ? ? ?
  | |- J ?i _ (pbind (ident id) _) => eapply (j_bind i okx); [apply j_ident|intros ? ?]
  | |- J ?i _ (pbind (popt (ident id)) _) => eapply (j_bind i (on_opt okx)); [apply j_opt, j_ident|intros ? ?]
  | |- J ?i _ (pbind (commasep (ident id)) _) => eapply (j_bind i (Forall okx)); [apply j_commasep, j_ident|intros ? ?]
  | |- J ?i _ (pbind (commasepp (ident id)) _) => eapply (j_bind i (Forall okx)); [apply j_commasepp, j_ident|intros ? ?]
  | |- J ?i _ (pbind (climb _) _) => eapply (j_bind i okS); [apply Hclimb|intros ? ?]
  | |- J ?i _ (pbind (r_node climb) _) => eapply (j_bind i okS); [apply Hclimb|intros ? ?]
  | |- J ?i _ (pbind (commasep (r_node climb)) _) => eapply (j_bind i okl); [apply (j_commasep i okS), Hclimb|intros ? ?]
  | |- J ?i _ (pbind _ _) => apply j_seq; [solve [mvs]|intros ?]
  end.
Lemma j_block i0 f : J i0 okl (r_block id climb f).
Proof using Hclimb Hcomplete.
  unfold r_block. repeat js. eapply j_bind; [apply (j_sep i1 (fun e => nS e /\ okS e)); [mvs|apply j_both]|intros l Hl].
  js. js. apply j_pos; intros i2 M2 A2. js. apply done_ok; [apply span_here; auto|exact Hl].
Qed.
Ltac jb := repeat first [js | match goal with |- J ?i _ (pbind (r_block id climb _) _) => eapply (j_bind i okl); [apply j_block|intros ? ?] end].

Lemma j_if fuel : forall i0, J i0 okn (r_if id climb fuel).
Proof using Hclimb Hcomplete.
  induction fuel as [|fuel IH]; intros i0; cbn [r_if]; [intros _ i a i' _ E; discriminate|].
  jb. eapply (j_bind i0 (on_opt okl)).
  - apply (j_opt i0 okl). jb. apply j_alt; [apply j_block|]. apply j_pos; intros i1 M1 A1. jb.
    eapply (j_bind i1 okn); [apply IH|intros x Hx]. js. apply j_pos; intros i2 M2 A2. js. constructor; [|constructor].
    split; [apply span_here; auto|exact Hx].
  - intros e He. jb. destruct e as [e|]; cbn [on_opt] in He; fin.
Qed.
Lemma j_args i0 : J i0 okl (args_ climb).
Proof using Hclimb. unfold args_. jb. assumption. Qed.
Lemma j_switch i0 : J i0 okn (r_switch id climb).
Proof using Hclimb Hcomplete.
  unfold r_switch. jb. eapply (j_bind i0 (Forall (fun vc : list nodeS * list nodeS => okl (fst vc) /\ okl (snd vc)))).
  - apply j_sep; [mvs|]. unfold r_case. jb.
    eapply (j_bind i0 okl); [apply (j_sep1 i0 okS); [mvs|apply Hclimb]|intros l Hl]. jb. split; assumption.
  - intros cs Hcs. jb. eapply (j_bind i0 (on_opt okl)); [apply (j_opt i0 okl); unfold r_default; jb; assumption|intros d Hd].
    jb. apply okn_intro; cbn [children names_of]; [|constructor]. constructor; [assumption|]. apply okl_app.
    + apply Forall_forall. intros e He. apply in_flat_map in He as ([x b] & H1 & H2).
      apply in_flat_map in H1 as (vc & H3 & H4). apply in_map_iff in H4 as (y & [= <- <-] & H4).
      rewrite Forall_forall in Hcs. apply Hcs in H3 as [H5 H6].
      unfold okl in H5, H6. rewrite Forall_forall in H5, H6.
      destruct H2 as [H2|H2]; cbn [fst snd] in H2; [subst e|]; auto.
    + destruct d as [d|]; cbn; [exact Hd|constructor].
Qed.
Lemma with_op_ok i f n : okx i -> okS n -> okS (with_op i f n).
Proof using.
  intros Hi Hn. destruct f; cbn [with_op]; auto. split; [exact (proj1 Hn)|]. cbn [fst]. fin. split; [exact Hi|]. cbn [fst]. fin.
Qed.
Ltac ja := repeat first [js | match goal with
  | |- J ?i _ (pbind (r_block id climb _) _) => eapply (j_bind i okl); [apply j_block|intros ? ?]
  | |- J ?i _ (pbind (args_ climb) _) => eapply (j_bind i okl); [apply j_args|intros ? ?] end].
Lemma j_atoms i0 fuel : Forall (J i0 okn) (prefix_atoms o id climb fuel).
Proof using Hclimb Hcomplete.
  unfold prefix_atoms. apply Forall_app; split; [|apply Forall_app; split].
  - repeat (apply Forall_cons || apply Forall_nil).
    + ja. eapply (j_bind i0 (on_opt okS)); [apply j_opt, Hclimb|intros e He]. ja. destruct e; cbn [on_opt] in He; fin.
    + ja. fin.
    + ja. fin. apply with_op_ok; auto.
    + ja. fin.
    + ja. fin. apply with_op_ok; auto.
    + ja. match goal with H : on_opt okx ?n |- okn (match ?n with _ => _ end) => destruct n; cbn [on_opt] in H; fin end.
    + apply j_if.
    + apply j_switch.
    + ja. fin.
    + ja. fin.
    + ja. fin.
    + ja. eapply (j_bind i0 okx); [ja; apply j_ident|intros nm Hnm]. ja.
      eapply (j_bind i0 (on_opt (Forall okx))); [apply j_opt; ja; apply j_commasep, j_ident|intros v Hv]. ja.
      apply okn_intro; cbn [children names_of]; [fin|]. constructor; [exact Hnm|].
      destruct v as [[|x [|y l]]|]; cbn [on_opt opt_list var_names] in *; try exact Hv; constructor.
    + ja. eapply (j_bind i0 okx); [apply j_sp_of; mvs|intros s Hs]. ja. fin.
    + ja. fin.
  - apply Forall_forall. intros p Hp. apply in_map_iff in Hp as (x & <- & _). ja. fin.
  - repeat (apply Forall_cons || apply Forall_nil).
    + ja. fin.
    + ja. fin.
    + ja. fin.
    + ja. fin.
    + ja. fin.
    + ja. fin.
    + ja. match goal with H : okS ?n |- okn (fst ?n) => exact (proj2 H) end.
    + ja. fin.
Qed.
Lemma j_posts i0 min lhs : okS lhs -> Forall (J i0 okn) (posts climb min lhs).
Proof using Hclimb Hcomplete.
  intros Hl. unfold posts. apply Forall_app; split.
  - apply Forall_forall. intros p Hp. apply in_map_iff in Hp as (x & <- & _).
    destruct (min <=? fst x); [|apply j_fail]. ja. destruct (snd (snd x)); fin.
  - repeat (apply Forall_cons || apply Forall_nil); ja; fin.
Qed.
Lemma j_post_loop n min i0 : forall lhs, okS lhs -> J i0 okS (post_loop id climb n min (fst i0) lhs).
Proof using Hclimb Hcomplete.
  induction n as [|n IH]; intros lhs Hl H0 i a i' Hi E; cbn [post_loop] in E; [discriminate|].
  destruct (pfirst (posts climb min lhs) i) as [x j| |] eqn:Ep; try discriminate.
  - destruct (j_first i0 okn _ (j_posts i0 min lhs Hl) H0 _ _ _ Hi Ep) as [M Hx].
    assert (M' : mv i0 j) by (eapply mv_trans; eauto).
    destruct (IH (x, mkSpan (fst i0) (fst j) id) (conj (span_here _ _ H0 M') Hx) H0 _ _ _ M' E) as [M2 Q2].
    split; [eapply mv_trans; eauto|exact Q2].
  - injection E as <- <-. split; [apply mv_refl|exact Hl].
Qed.
End Grammar.

Lemma j_climb o fuel : forall i0 min, J i0 okS (climb o id fuel min).
Proof using.
  induction fuel as [|fuel IH]; intros i0 min H0 i a i' Hi E; cbn [climb] in E; [discriminate|].
  destruct (pfirst (prefix_atoms o id (climb o id fuel) fuel) i) as [x j| |] eqn:Ep; try discriminate.
  assert (Hat : atp i) by (eapply atp_mv; eauto).
  destruct (j_first i0 okn _ (j_atoms o _ (y_climb o id fuel) IH i0 fuel) H0 _ _ _ Hi Ep) as [M Hx].
  destruct (j_post_loop _ (y_climb o id fuel) IH _ min i (x, mkSpan (fst i) (fst j) id)
    (conj (span_here _ _ Hat M) Hx) Hat _ _ _ M E) as [M2 Q2].
  split; [eapply mv_trans; eauto|exact Q2].
Qed.
Lemma j_code o fuel i0 : J i0 okl (r_code o id fuel).
Proof using.
  unfold r_code. apply j_seq; [mvs|intros _]. apply j_pos; intros i1 M1 A1.
  eapply (j_bind i1 (on_opt (Forall (fun e => nS e /\ okS e)))).
  - apply j_opt, j_sep; [mvs|]. apply j_both; [apply y_climb|apply j_climb].
  - intros c Hc. apply j_pos; intros i2 M2 A2. apply j_seq; [mvs|intros _]. apply j_ret.
    apply done_ok; [apply span_here; auto|]. destruct c; [exact Hc|constructor].
Qed.
Lemma parse_ok o fuel ast i : parse_code o fuel text id = PMatch ast i -> okl ast.
Proof using.
  unfold parse_code, whole. destruct (r_code o id fuel (0, text)) as [a j| |] eqn:E; try discriminate.
  destruct (snd j); [|discriminate]. intros [= <- <-].
  assert (A0 : atp (0, text)) by (exists []; split; [reflexivity|cbn; reflexivity]).
  exact (proj2 (j_code o fuel (0, text) A0 _ _ _ (mv_refl _) E)).
Qed.
End Text.

(** ** Positions of a program *)
Definition allpos (W : span -> Prop) (l : list nodeS) : Prop := forall sp, position_of l sp -> W sp.
Lemma occurs_mono l l' n sp : (forall x, In x l -> In x l') -> occurs l n sp -> occurs l' n sp.
Proof. intros H. induction 1; [apply oc_top; auto|eapply oc_in; eauto]. Qed.
Lemma position_mono l l' sp : (forall x, In x l -> In x l') -> position_of l sp -> position_of l' sp.
Proof. intros H. destruct 1; [eapply po_node|eapply po_name]; eauto using occurs_mono. Qed.
Lemma occurs_split l n sp : occurs l n sp -> In (n, sp) l \/ exists p psp, In (p, psp) l /\ occurs (children p) n sp.
Proof.
  induction 1 as [n sp H|p psp n sp H IH Hc]; [auto|]. right. destruct IH as [IH|(q & qsp & IH & Ho)].
  - exists p, psp. split; [exact IH|now apply oc_top].
  - exists q, qsp. split; [exact IH|eapply oc_in; eauto].
Qed.
Lemma allpos_split (W : span -> Prop) l : (forall n sp, In (n, sp) l -> W sp /\ Forall (fun x : spanned rstring => W (snd x)) (names_of n) /\ allpos W (children n)) ->
  allpos W l.
Proof.
  intros H sp [n Ho|n nsp x Ho Hx].
  - apply occurs_split in Ho as [Hi|(p & psp & Hi & Ho)]; [now apply H in Hi|].
    apply H in Hi as (_ & _ & Hi). apply Hi. eapply po_node; eauto.
  - apply occurs_split in Ho as [Hi|(p & psp & Hi & Ho)].
    + apply H in Hi as (_ & Hi & _). rewrite Forall_forall in Hi. exact (Hi _ Hx).
    + apply H in Hi as (_ & _ & Hi). apply Hi. eapply po_name; eauto.
Qed.
Lemma allpos_in (W : span -> Prop) l n sp : allpos W l -> In (n, sp) l -> W sp /\ Forall (fun x : spanned rstring => W (snd x)) (names_of n) /\ allpos W (children n).
Proof.
  intros H Hi. split; [apply H; eapply po_node, oc_top; eauto|]. split.
  - apply Forall_forall. intros [x xs] Hx. apply H. eapply po_name; [apply oc_top; exact Hi|exact Hx].
  - intros s Hs. apply H. destruct Hs as [k Ho|k ks x Ho Hx].
    + eapply po_node. induction Ho; [eapply oc_in; [apply oc_top; eauto|eauto]|eapply oc_in; eauto].
    + eapply po_name; [|exact Hx]. clear Hx. induction Ho; [eapply oc_in; [apply oc_top; eauto|eauto]|eapply oc_in; eauto].
Qed.
Lemma allpos_cons (W : span -> Prop) n sp t : W sp -> Forall (fun x : spanned rstring => W (snd x)) (names_of n) -> allpos W (children n) -> allpos W t ->
  allpos W ((n, sp) :: t).
Proof.
  intros H1 H2 H3 H4. apply allpos_split. intros m s [[= <- <-]|Hi]; [auto|]. eapply allpos_in; eauto.
Qed.
Lemma allpos_impl (W W' : span -> Prop) l : (forall s, W s -> W' s) -> allpos W l -> allpos W' l.
Proof. intros H H1 s Hs. auto. Qed.
Lemma okl_allpos text id l : okl text id l -> allpos (here text id) l.
Proof.
  intros H. unfold okl in H. rewrite Forall_forall in H.
  assert (K : forall n sp, occurs l n sp -> here text id sp /\ exists m, (exists msp, In (m, msp) l) /\ inside n m).
  { assert (In_trans : forall p m, inside p m -> forall n sp, In (n, sp) (children p) -> inside n m).
    { induction 1; intros; [eapply inside_child; [eauto|constructor]|eapply inside_child; eauto]. }
    induction 1 as [n sp Hi|p psp n sp Ho [_ (m & (msp & Hm) & Hin)] Hc].
    - split; [exact (proj1 (H _ Hi))|]. exists n. split; [eauto|constructor].
    - split; [|exists m; split; [eauto|eapply In_trans; eauto]].
      destruct (H _ Hm) as [_ Hk]. destruct (Hk _ Hin) as [Hk1 _]. rewrite Forall_forall in Hk1. exact (Hk1 _ Hc). }
  intros sp [n Ho|n nsp x Ho Hx].
  - exact (proj1 (K _ _ Ho)).
  - destruct (K _ _ Ho) as [_ (m & (msp & Hm) & Hin)]. destruct (H _ Hm) as [_ Hk]. destruct (Hk _ Hin) as [_ Hk2].
    rewrite Forall_forall in Hk2. exact (Hk2 _ Hx).
Qed.
Lemma parse_positions o fuel text id ast i sp :
  parse_code o fuel text id = PMatch ast i -> position_of ast sp -> within text sp /\ sp_src sp = id.
Proof. intros H Hp. exact (okl_allpos text id ast (parse_ok text id o fuel ast i H) sp Hp). Qed.

Section Includes.
Context (read : rstring -> option rstring) (parse : rstring -> nat -> option (list nodeS)) (name text : rstring).
Context (Hparse : forall t id a sp, parse t id = Some a -> position_of a sp -> within t sp /\ sp_src sp = id).
Lemma placed_mono l l' sp : placed read name text l sp -> placed read name text (l ++ l') sp.
Proof using.
  intros (f & t & H1 & H2). exists f, t. split; [|exact H2]. rewrite nth_error_app1; [exact H1|]. apply nth_error_Some. congruence.
Qed.
Lemma resolve_placed fuel : forall ast s ast' s', i_sources s <> [] ->
  allpos (placed read name text (i_sources s)) ast -> resolve_includes read parse fuel ast s = IOk ast' s' ->
  (exists l, i_sources s' = i_sources s ++ l) /\ allpos (placed read name text (i_sources s')) ast'.
Proof using Hparse.
  induction fuel as [|k IH]; intros ast s ast' s' Hs Ha; cbn [resolve_includes]; [discriminate|].
  revert s ast' s' Hs Ha. induction ast as [|[n sp] t IHt]; intros s ast' s' Hs Ha E.
  - injection E as <- <-. split; [exists []; now rewrite app_nil_r|exact Ha].
  - destruct (allpos_in _ _ n sp Ha (or_introl eq_refl)) as (W1 & W2 & W3).
    assert (Wt : allpos (placed read name text (i_sources s)) t).
    { intros x Hx. apply Ha. eapply position_mono; [|exact Hx]. intros y Hy; now right. }
    destruct n.
    all: try (match type of E with match ?X with _ => _ end = _ => destruct X eqn:Et; try discriminate end;
              injection E as <- <-; destruct (IHt _ _ _ Hs Wt Et) as [(lw & El) H2]; split; [exists lw; exact El|];
              apply allpos_cons; [rewrite El; now apply placed_mono
                |eapply Forall_impl; [|exact W2]; intros; cbv beta; rewrite El; now apply placed_mono
                |eapply allpos_impl; [|exact W3]; intros; rewrite El; now apply placed_mono|exact H2]).
    match goal with x : spanned rstring |- _ => destruct x as [nm nsp] end. destruct (i_mem nm s); [discriminate|].
    destruct (read nm) as [txt|] eqn:Er; [|discriminate].
    destruct (parse txt (length (i_sources s))) as [a1|] eqn:Ep; [|discriminate].
    cbv zeta in E.
    destruct (resolve_includes read parse k a1 _) as [a2 s2| |] eqn:E1; try discriminate.
    destruct (resolve_includes read parse k a2 _) as [a3 s3| |] eqn:E2; try discriminate.
    match type of E with match ?X with _ => _ end = _ => destruct X as [t' s4| |] eqn:Et; try discriminate end.
    injection E as <- <-.
    assert (A1 : allpos (placed read name text (i_sources (i_add nm s))) a1).
    { intros x Hx. destruct (Hparse _ _ _ _ Ep Hx) as [Hw Hsrc]. exists nm, txt. cbn [i_add i_sources].
      rewrite Hsrc, nth_error_app2, Nat.sub_diag by lia. split; [reflexivity|]. split; [|exact Hw].
      destruct (i_sources s); [congruence|exact Er]. }
    assert (N1 : i_sources (i_add nm s) <> []) by (cbn; destruct (i_sources s); discriminate).
    destruct (IH _ _ _ _ N1 A1 E1) as [(l1 & L1) A2].
    assert (N2 : i_sources s2 <> []) by (rewrite L1; cbn; destruct (i_sources s); discriminate).
    destruct (IH _ (i_mark nm s2) _ _ N2 A2 E2) as [(l2 & L2) A3].
    assert (L3 : i_sources s3 = i_sources s ++ ([nm] ++ l1 ++ l2)).
    { rewrite L2. cbn [i_mark i_sources]. rewrite L1. cbn [i_add i_sources]. now rewrite <- !app_assoc. }
    assert (N3 : i_sources s3 <> []) by (rewrite L3; destruct (i_sources s); discriminate).
    assert (A4 : allpos (placed read name text (i_sources s3)) t).
    { eapply allpos_impl; [|exact Wt]. intros x Hx. rewrite L3. now apply placed_mono. }
    destruct (IHt _ _ _ N3 A4 Et) as [(l3 & L4) A5].
    split; [exists (([nm] ++ l1 ++ l2) ++ l3); rewrite L4, L3; now rewrite <- app_assoc|].
    assert (Up : forall x, placed read name text (i_sources s) x -> placed read name text (i_sources s4) x).
    { intros x Hx. rewrite L4, L3, <- app_assoc. now apply placed_mono. }
    apply allpos_cons; [auto|eapply Forall_impl; [|exact W2]; auto| |exact A5].
    cbn [children opt_list]. eapply allpos_impl; [|exact A3]. intros x Hx. rewrite L4. now apply placed_mono.
Qed.
Lemma includes_placed fuel ast s sp :
  parse_with_includes read parse fuel name text = IOk ast s -> position_of ast sp -> placed read name text (i_sources s) sp.
Proof using Hparse.
  unfold parse_with_includes. destruct (parse text 0) as [a|] eqn:E; [|discriminate].
  intros H. revert sp. eapply resolve_placed; [|  |exact H]; [discriminate|].
  intros x Hx. destruct (Hparse _ _ _ _ E Hx) as [Hw Hsrc]. exists name, text. rewrite Hsrc. split; [reflexivity|].
  split; [split; reflexivity|exact Hw].
Qed.
End Includes.
