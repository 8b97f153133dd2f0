(** White space put before a program moves the positions (C106). *)
From Verif Require Import Base Float NumText Ast Parse SpecParse SpecProg SpecRename SpecMove Value Compiler ProofCompiler ProofParse ProofParse2 ProofParse4 ProofExpr ProofProg.
Ltac Zify.zify_post_hook ::= idtac.

Lemma exchange_inj a b x y : swap a b x = swap a b y -> x = y.
Proof. unfold swap. destruct (Nat.eqb_spec x a), (Nat.eqb_spec x b), (Nat.eqb_spec y a), (Nat.eqb_spec y b); congruence. Qed.
Lemma slide_moving k ia ib : moving (slide k ia ib).
Proof.
  split; [|reflexivity]. intros [a b c] [a' b' c']. unfold slide. cbn [sp_start sp_end sp_src].
  destruct (Nat.eqb_spec b 0), (Nat.eqb_spec b' 0); intros H; injection H as H1 H2 H3; try lia; subst; [reflexivity|].
  apply exchange_inj in H3. subst c'. f_equal; lia.
Qed.

Section Move.
Context (k ia ib : nat).
Notation mv := (slide k ia ib).
Notation nd := (rename (fun x : rstring => x) mv).
Notation nm := (rename_name (fun x : rstring => x) mv).
Definition one (e : nodeS) : nodeS := (nd (fst e), mv (snd e)).
Lemma mv_at s e : 0 < e -> mv (mkSpan s e ia) = mkSpan (s + k) (e + k) ib.
Proof. intros H. unfold slide, swap. cbn [sp_start sp_end sp_src]. destruct (Nat.eqb_spec e 0); [lia|]. rewrite Nat.eqb_refl. reflexivity. Qed.

(** Two parsers on the same rest of the text, the second [k] bytes further; [e]: something is taken. *)
Definition b2n (e : bool) : nat := if e then 1 else 0.
Definition pm {A} (m : nat) (e : bool) (f : A -> A) (p q : P A) : Prop := forall n s, m <= n ->
  match p (n, s), q (n + k, s) with
  | PMatch a i, PMatch b j => b = f a /\ j = (fst i + k, snd i) /\ n + b2n e <= fst i /\ (fst i = n -> snd i = s)
  | PFail, PFail => True
  | PFuel, PFuel => True
  | _, _ => False
  end.
Definition same {A} (x : A) : A := x.
Lemma pm_le {A} m e e' (f : A -> A) p q : pm m e' f p q -> implb e e' = true -> pm m e f p q.
Proof.
  intros H E n s L. specialize (H n s L). destruct (p (n, s)) as [a i| |], (q (n + k, s)) as [b j| |]; auto.
  destruct H as (H1 & H2 & H3 & H4). repeat split; auto. destruct e, e'; cbn in *; try discriminate; lia.
Qed.
Lemma pm_up {A} m m' e (f : A -> A) p q : pm m e f p q -> m <= m' -> pm m' e f p q.
Proof. intros H L n s L'. apply H. lia. Qed.
Lemma pm_ret {A} m (f : A -> A) a b : b = f a -> pm m false f (pret a) (pret b).
Proof. intros H n s L. cbn. repeat split; auto. lia. Qed.
Lemma pm_fail {A} m e (f : A -> A) : pm m e f pfail pfail. Proof. intros n s L. exact I. Qed.
Lemma pm_fuel {A} m e (f : A -> A) : pm m e f (fun _ => PFuel) (fun _ => PFuel). Proof. intros n s L. exact I. Qed.
Lemma pm_bind {A B} m e1 e2 (f : A -> A) (g : B -> B) p q (x y : A -> P B) :
  pm m e1 f p q -> (forall a, pm (m + b2n e1) e2 g (x a) (y (f a))) -> pm m (e1 || e2) g (pbind p x) (pbind q y).
Proof.
  intros H1 H2 n s L. specialize (H1 n s L). unfold pbind. destruct (p (n, s)) as [a [j t]| |], (q (n + k, s)) as [b j'| |]; auto; try contradiction.
  destruct H1 as (-> & -> & L1 & R1). cbn [fst snd] in *. specialize (H2 a j t ltac:(lia)).
  destruct (x a (j, t)) as [c [i u]| |], (y (f a) (j + k, t)) as [d i'| |]; auto. destruct H2 as (-> & -> & L2 & R2). cbn [fst snd] in *. repeat split; auto.
  - destruct e1, e2; cbn in *; lia.
  - intros ->. assert (j = n) by (destruct e1, e2; cbn in *; lia). subst j. rewrite R2, R1; auto.
Qed.
Lemma pm_alt {A} m e1 e2 (f : A -> A) p q p' q' : pm m e1 f p p' -> pm m e2 f q q' -> pm m (e1 && e2) f (palt p q) (palt p' q').
Proof.
  intros H1 H2 n s L. specialize (H1 n s L). specialize (H2 n s L). unfold palt.
  destruct (p (n, s)) as [a i| |], (p' (n + k, s)) as [b j| |]; auto; try contradiction.
  - destruct H1 as (E1 & E2 & L1 & R1). repeat split; auto. destruct e1, e2; cbn in *; lia.
  - destruct (q (n, s)) as [a i| |], (q' (n + k, s)) as [b j| |]; auto. destruct H2 as (E1 & E2 & L1 & R1). repeat split; auto. destruct e1, e2; cbn in *; lia.
Qed.
Lemma pm_opt {A} m e (f : A -> A) p q : pm m e f p q -> pm m false (option_map f) (popt p) (popt q).
Proof.
  intros H n s L. specialize (H n s L). unfold popt. destruct (p (n, s)) as [a i| |], (q (n + k, s)) as [b j| |]; auto; try contradiction.
  - destruct H as (-> & -> & L1 & R1). repeat split; auto. cbn. lia.
  - cbn. repeat split; auto. lia.
Qed.
Lemma pm_not {A} m e (f : A -> A) p q : pm m e f p q -> pm m false same (pnot p) (pnot q).
Proof.
  intros H n s L. specialize (H n s L). unfold pnot. destruct (p (n, s)) as [a i| |], (q (n + k, s)) as [b j| |]; auto; try contradiction.
  cbn. repeat split; auto. lia.
Qed.
Lemma pm_pos {B} m e (g : B -> B) (x y : nat -> P B) : (forall s, m <= s -> pm s e g (x s) (y (s + k))) -> pm m e g (pbind ppos x) (pbind ppos y).
Proof. intros H n s L. unfold pbind, ppos. cbn [fst]. apply (H n L). lia. Qed.
Lemma utf8_pos c : 1 <= N.to_nat (utf8_len c).
Proof. unfold utf8_len. repeat match goal with |- context [if ?b then _ else _] => destruct b end; cbn; lia. Qed.
Lemma pm_char m f : pm m true same (pchar f) (pchar f).
Proof.
  intros n [|c t] L; cbn; [exact I|]. destruct (f c); [|exact I]. cbn. pose proof (utf8_pos c). repeat split; [f_equal; lia|lia|lia].
Qed.
Definition some (s : rstring) : bool := match s with [] => false | _ => true end.
Lemma pm_lit m s : pm m (some s) same (plit s) (plit s).
Proof.
  revert m. induction s as [|c s IH]; intros m; cbn [plit some]; [now apply pm_ret|].
  change true with (true || some s). eapply pm_bind; [apply pm_char|]. intros a. apply IH.
Qed.
Lemma run_go f s : forall n, prun_go f (n + k) s = (fst (prun_go f n s), (fst (snd (prun_go f n s)) + k, snd (snd (prun_go f n s)))) /\
  n <= fst (snd (prun_go f n s)) /\ (fst (snd (prun_go f n s)) = n -> snd (snd (prun_go f n s)) = s) /\ n + b2n (some (fst (prun_go f n s))) <= fst (snd (prun_go f n s)).
Proof.
  induction s as [|c s IH]; intros n; cbn [prun_go fst snd]; [cbn; repeat split; auto; lia|]. destruct (f c); [|cbn; repeat split; auto; lia].
  pose proof (utf8_pos c) as U. specialize (IH (n + N.to_nat (utf8_len c))).
  replace (n + k + N.to_nat (utf8_len c)) with (n + N.to_nat (utf8_len c) + k) by lia.
  destruct (prun_go f (n + N.to_nat (utf8_len c)) s) as [r i]. cbn [fst snd] in *. destruct IH as (-> & L & _ & _). cbn [fst snd some b2n]. repeat split; lia.
Qed.
Lemma pm_run m f : pm m false same (prun f) (prun f).
Proof.
  intros n s L. unfold prun. cbn [fst snd]. destruct (run_go f s n) as (E & L1 & R & _). rewrite E. destruct (prun_go f n s) as [r i]. cbn in *. repeat split; auto. lia.
Qed.
Lemma pm_run1 m f : pm m true same (prun1 f) (prun1 f).
Proof.
  intros n s L. unfold prun1, pbind, prun. cbn [fst snd]. destruct (run_go f s n) as (E & L1 & R & L2). rewrite E. destruct (prun_go f n s) as [r i]. cbn [fst snd] in *.
  destruct r; cbn in *; auto.
Qed.
Lemma pm_star {A} m e (f : A -> A) p q : pm m e f p q -> pm m false (map f) (pstar p) (pstar q).
Proof.
  intros H n s L. unfold pstar. cbn [snd]. generalize (S (length s)) as h. intros h. revert n s L. induction h as [|h IH]; intros n s L; cbn [pstar_go]; [exact I|].
  specialize (H n s L). destruct (p (n, s)) as [a [j t]| |], (q (n + k, s)) as [b j'| |]; auto; try contradiction.
  - destruct H as (-> & -> & L1 & R1). cbn [fst snd] in *. specialize (IH j t ltac:(lia)).
    destruct (pstar_go h p (j, t)) as [l [i u]| |], (pstar_go h q (j + k, t)) as [l' i'| |]; auto. destruct IH as (-> & -> & L2 & R2). cbn [fst snd b2n] in *. repeat split; auto; [lia|].
    intros ->. assert (j = n) by lia. subst. rewrite R2, R1; auto.
  - cbn. repeat split; auto. lia.
Qed.
Lemma pm_sep1 {A B} m e1 e2 (f : A -> A) (g : B -> B) p q u v : (forall m, pm m e1 f p q) -> (forall m, pm m e2 g u v) -> pm m e1 (map f) (psep1 p u) (psep1 q v).
Proof.
  intros H1 H2. apply pm_le with (e' := e1 || (false || false)); [|destruct e1; reflexivity]. eapply pm_bind; [apply H1|]. intros a.
  eapply pm_bind; [eapply pm_star, pm_bind; [apply H2|intros; apply H1]|]. intros l. now apply pm_ret.
Qed.
Lemma pm_sep {A B} m e1 e2 (f : A -> A) (g : B -> B) p q u v : (forall m, pm m e1 f p q) -> (forall m, pm m e2 g u v) -> pm m false (map f) (psep p u) (psep q v).
Proof.
  intros H1 H2. apply pm_le with (e' := e1 && false); [|destruct e1; reflexivity]. eapply pm_alt; [eapply pm_sep1; eauto|now apply pm_ret].
Qed.

(** ** Words *)
Ltac basic :=
  match goal with
  | |- pm _ _ _ (pret _) (pret _) => apply pm_ret; first [reflexivity | match goal with |- context [option_map _ ?x] => destruct x; reflexivity end | (unfold same; rewrite map_id; reflexivity)]
  | |- pm _ _ _ pfail pfail => apply (pm_fail _ true)
  | |- pm _ _ _ (fun _ => PFuel) _ => apply (pm_fuel _ true)
  | |- pm _ _ _ (pchar _) _ => apply pm_char
  | |- pm _ _ _ (plit _) _ => apply pm_lit
  | |- pm _ _ _ (prun _) _ => apply pm_run
  | |- pm _ _ _ (prun1 _) _ => apply pm_run1
  | |- pm _ _ _ (popt _) _ => eapply pm_opt
  | |- pm _ _ _ (pnot _) _ => eapply pm_not
  | |- pm _ _ _ (pstar _) _ => eapply pm_star
  | |- pm _ _ _ (palt _ _) _ => eapply pm_alt
  | |- pm _ _ _ (pbind _ _) _ => eapply pm_bind; [|intros; unfold same]
  end.
Ltac words := eapply pm_le; [repeat (first [solve [eauto with pmdb] | basic])|reflexivity].
Create HintDb pmdb.
Lemma pm_TERM m : pm m true same r_TERM r_TERM. Proof. unfold r_TERM. words. Qed.
Hint Resolve pm_TERM : pmdb.
Lemma pm_COMMENT m : pm m true same r_COMMENT r_COMMENT. Proof. unfold r_COMMENT. words. Qed.
Hint Resolve pm_COMMENT : pmdb.
Lemma pm_TERMINATOR m : pm m true same r_TERMINATOR r_TERMINATOR. Proof. unfold r_TERMINATOR. words. Qed.
Hint Resolve pm_TERMINATOR : pmdb.
Lemma pm_WHITESPACE m : pm m true same r_WHITESPACE r_WHITESPACE. Proof. unfold r_WHITESPACE. words. Qed.
Hint Resolve pm_WHITESPACE : pmdb.
Lemma pm_ws m : pm m false same ws_ ws_. Proof. unfold ws_. words. Qed.
Lemma pm_ws1 m : pm m true same ws1 ws1. Proof. unfold ws1. cbv zeta. words. Qed.
Lemma pm_ws0 m : pm m false same ws0 ws0. Proof. unfold ws0. words. Qed.
Hint Resolve pm_ws pm_ws1 pm_ws0 : pmdb.
Lemma pm_kw m s : pm m (some s) same (kw s) (kw s).
Proof. unfold kw. eapply pm_le; [eapply pm_bind; [apply pm_lit|intros; eapply pm_not, (pm_char _ is_word)]|destruct s; reflexivity]. Qed.
Lemma pm_op m : pm m true same r_op r_op. Proof. unfold r_op. words. Qed.
Lemma pm_if {A} m e (f : A -> A) (b : bool) p q p' q' : pm m e f p p' -> pm m e f q q' -> pm m e f (if b then p else q) (if b then p' else q').
Proof. destruct b; auto. Qed.
Lemma pm_IDENT m : pm m true same r_IDENT r_IDENT.
Proof.
  unfold r_IDENT. eapply pm_le; [|exact (eq_refl : implb true (true || (false || false)) = true)]. eapply pm_bind; [apply pm_char|intros a; unfold same; cbv beta].
  eapply pm_bind; [apply pm_run|intros t; unfold same; cbv beta]. apply pm_if; [apply pm_fail|now apply pm_ret].
Qed.
Hint Resolve pm_kw pm_op pm_IDENT : pmdb.
Lemma pm_int m f : pm m true same (r_int f) (r_int f). Proof. unfold r_int. words. Qed.
Lemma pm_INT32 m : pm m true same r_INT32 r_INT32. Proof. apply pm_int. Qed.
Lemma pm_INT m : pm m true same r_INT r_INT. Proof. apply pm_int. Qed.
Lemma pm_STRING m : pm m true same r_STRING r_STRING. Proof. unfold r_STRING. words. Qed.
Lemma pm_FLOAT m o : pm m true same (r_FLOAT o) (r_FLOAT o).
Proof. unfold r_FLOAT. cbv zeta. words. Qed.
Lemma pm_HEX m : pm m true same r_HEX r_HEX.
Proof.
  unfold r_HEX. eapply pm_le; [|exact (eq_refl : implb true (true || (true || false)) = true)]. eapply pm_bind; [apply (pm_lit _ (str "#"))|intros a].
  eapply pm_bind; [apply pm_run1|intros t; unfold same; cbv beta]. destruct (hex_to_rgba t); [now apply pm_ret|apply pm_fail].
Qed.
Lemma pm_color m : pm m true same (on h <- r_HEX; let '(r, g, b, a) := h in pret (LColor r g b a)) (on h <- r_HEX; let '(r, g, b, a) := h in pret (LColor r g b a)).
Proof.
  eapply pm_le; [|exact (eq_refl : implb true (true || false) = true)]. eapply pm_bind; [apply pm_HEX|intros [[[r g] b] a]]. now apply pm_ret.
Qed.
Hint Resolve pm_color pm_INT32 pm_INT pm_STRING pm_FLOAT pm_HEX : pmdb.
Lemma pm_item {A} m e (f : A -> A) p q : (forall m, pm m e f p q) -> pm m e f (on y <- p; ws_ >> pret y) (on y <- q; ws_ >> pret y).
Proof.
  intros H. eapply pm_le; [eapply pm_bind; [apply H|intros; eapply pm_bind; [apply pm_ws|intros; now apply pm_ret]]|destruct e; reflexivity].
Qed.
Lemma pm_wsitem {A} m e (f : A -> A) p q : (forall m, pm m e f p q) -> pm m e f (ws_ >> on y <- p; ws_ >> pret y) (ws_ >> on y <- q; ws_ >> pret y).
Proof. intros H. eapply pm_le; [eapply pm_bind; [apply pm_ws|intros; now apply pm_item]|destruct e; reflexivity]. Qed.
Lemma pm_commasep {A} m e (f : A -> A) p q : (forall m, pm m e f p q) -> pm m false (map f) (commasep p) (commasep q).
Proof.
  intros H. unfold commasep. eapply pm_le; [|exact (eq_refl : implb false (false || (false || (false || (false || false)))) = true)].
  eapply pm_bind; [apply pm_ws|intros]. eapply pm_bind; [eapply pm_sep; [intros; now apply pm_wsitem|intros; apply pm_lit]|intros].
  eapply pm_bind; [eapply pm_opt, pm_lit|intros]. eapply pm_bind; [apply pm_ws|intros]. now apply pm_ret.
Qed.
Lemma pm_commasepp {A} m e (f : A -> A) p q : (forall m, pm m e f p q) -> pm m e (map f) (commasepp p) (commasepp q).
Proof.
  intros H. unfold commasepp. apply pm_le with (e' := false || (e || (false || (false || false)))); [|destruct e; reflexivity].
  eapply pm_bind; [apply pm_ws|intros]. eapply pm_bind; [eapply pm_sep1; [intros; now apply pm_wsitem|intros; apply pm_lit]|intros].
  eapply pm_bind; [eapply pm_opt, pm_lit|intros]. eapply pm_bind; [apply pm_ws|intros]. now apply pm_ret.
Qed.
Lemma pm_literal o fuel : forall m, pm m true same (r_literal o fuel) (r_literal o fuel).
Proof.
  induction fuel as [|fuel IH]; intros m; cbn [r_literal]; [apply pm_fuel|].
  assert (IH' : forall m, pm m false (map same) (commasep (r_literal o fuel)) (commasep (r_literal o fuel))) by (intros; eapply pm_commasep, IH).
  eapply pm_le; [repeat first [solve [eauto with pmdb] | basic]|reflexivity].
Qed.

(** ** Completing bodies *)
Lemma exp_r n : is_expression (nd n) = is_expression n.
Proof. destruct n; reflexivity. Qed.
Lemma body_r sp l : Forall (fun e => forall sp, nd (settle (fst e) sp) = settle (nd (fst e)) (mv sp)) l -> map one (settle_body sp l) = settle_body (mv sp) (map one l).
Proof.
  induction 1 as [|[x xs] l H Hl IH]; [reflexivity|]. rewrite settle_body_eq. cbn [map]. unfold one at 2. cbn [fst snd]. rewrite settle_body_eq.
  destruct l as [|e l]; [|cbn [map] in *; rewrite IH; reflexivity]. cbn [map]. rewrite exp_r. cbn [fst] in H. specialize (H xs).
  destruct x; try reflexivity; destruct (is_expression _); unfold one; cbn [map fst snd]; rewrite ?H; reflexivity.
Qed.
Lemma settle_r n : forall sp, nd (settle n sp) = settle (nd n) (mv sp).
Proof.
  induction n using node_ind'; intros sp; try reflexivity; rewrite (settle_eq _ sp); cbn [rename]; fold one;
    rewrite settle_eq; try (rewrite <- body_r by assumption; reflexivity).
  - rewrite <- body_r by assumption. destruct o; cbn [option_map]; [rewrite <- body_r by assumption|]; reflexivity.
Qed.
Lemma none_r l sp f : map one (add_implicit_none l sp f) = add_implicit_none (map one l) (mv sp) f.
Proof.
  induction l as [|[x xs] l IH]; [destruct f; reflexivity|]. cbn [add_implicit_none map]. unfold one at 2. cbn [fst snd add_implicit_none].
  destruct l as [|e l]; [|cbn [map] in *; rewrite IH; reflexivity]. cbn [map]. rewrite exp_r. pose proof (settle_r x xs) as H.
  destruct x; try reflexivity; destruct (is_expression _), f; unfold one; cbn [map fst snd rename option_map]; rewrite ?H; reflexivity.
Qed.

(** ** The grammar *)
Hint Resolve pm_literal : pmdb.
Section Grammar.
Context (o : oracle).
Lemma pm_ident m (p : P rstring) : (forall m, pm m true same p p) -> pm m true nm (sp_of ia p) (sp_of ib p).
Proof.
  intros H. unfold sp_of. apply pm_pos. intros s L. eapply pm_le; [|exact (eq_refl : implb true (true || false) = true)].
  eapply pm_bind; [apply H|intros n; unfold same; cbv beta]. apply pm_pos. intros e Le. apply pm_ret. unfold rename_name. cbn [fst snd]. rewrite mv_at; [reflexivity|]. cbn in Le. lia.
Qed.
Lemma pm_id m : pm m true nm (ident ia) (ident ib). Proof. apply pm_ident, pm_IDENT. Qed.
Hint Resolve pm_id : pmdb.
Section Rules.
Context (c c' : nat -> P nodeS) (hc : forall min m, pm m true one (c min) (c' min)).
Hint Resolve hc : pmdb.
Lemma pm_node m : pm m true one (r_node c) (r_node c'). Proof. apply hc. Qed.
Hint Resolve pm_node : pmdb.
Lemma pm_semi m : pm m false same (plit (str ";") <|> ws_) (plit (str ";") <|> ws_).
Proof. words. Qed.
Lemma pm_block m f : pm m true (map one) (r_block ia c f) (r_block ib c' f).
Proof.
  unfold r_block. apply pm_pos. intros s L. eapply pm_le; [|exact (eq_refl : implb true (true || (false || (false || (false || (true || false))))) = true)].
  eapply pm_bind; [apply (pm_lit _ (str "{"))|intros]. eapply pm_bind; [apply pm_ws|intros]. eapply pm_bind; [eapply pm_sep; [intros; apply pm_node|intros; apply pm_semi]|intros code].
  eapply pm_bind; [apply pm_ws|intros]. eapply pm_bind; [apply (pm_lit _ (str "}"))|intros]. apply pm_pos. intros e Le. apply pm_ret.
  rewrite none_r, mv_at; [reflexivity|]. cbn in Le. lia.
Qed.
Hint Resolve pm_block : pmdb.
Lemma pm_commas m : pm m false (map one) (commasep (r_node c)) (commasep (r_node c')). Proof. eapply pm_commasep. intros. apply pm_node. Qed.
Lemma pm_ids m : pm m false (map nm) (commasep (ident ia)) (commasep (ident ib)). Proof. eapply pm_commasep. intros. apply pm_id. Qed.
Lemma pm_ids1 m : pm m true (map nm) (commasepp (ident ia)) (commasepp (ident ib)). Proof. eapply pm_commasepp. intros. apply pm_id. Qed.
Lemma pm_name m : pm m true nm (sp_of ia r_STRING) (sp_of ib r_STRING). Proof. apply pm_ident, pm_STRING. Qed.
Hint Resolve pm_commas pm_ids pm_ids1 pm_name : pmdb.
Ltac rules := eapply pm_le; [repeat (first [solve [eauto with pmdb] | basic])|reflexivity].
Lemma pm_args m : pm m true (map one) (args_ c) (args_ c'). Proof. unfold args_. rules. Qed.
Hint Resolve pm_args : pmdb.
Lemma pm_ifs fuel : forall m, pm m true nd (r_if ia c fuel) (r_if ib c' fuel).
Proof.
  induction fuel as [|fuel IH]; intros m; cbn [r_if]; [apply pm_fuel|]. cbv zeta.
  assert (E : forall m, pm m true (map one) (on s <- ppos; ws_ >> on x <- r_if ia c fuel; ws_ >> on e <- ppos; pret [(x, mkSpan s e ia)])
                                  (on s <- ppos; ws_ >> on x <- r_if ib c' fuel; ws_ >> on e <- ppos; pret [(x, mkSpan s e ib)])).
  { intros j. apply pm_pos. intros s L. eapply pm_le; [|exact (eq_refl : implb true (false || (true || (false || false))) = true)].
    eapply pm_bind; [apply pm_ws|intros]. eapply pm_bind; [apply IH|intros x]. eapply pm_bind; [apply pm_ws|intros]. apply pm_pos. intros e Le. apply pm_ret.
    unfold one. cbn [map fst snd]. rewrite mv_at; [reflexivity|]. cbn in Le. lia. }
  eapply pm_le; [repeat (first [solve [eauto with pmdb] | basic])|reflexivity].
Qed.
Hint Resolve pm_ifs : pmdb.
Definition cs2 (x : list nodeS * list nodeS) : list nodeS * list nodeS := (map one (fst x), map one (snd x)).
Lemma pm_cases m : pm m true cs2 (r_case ia c) (r_case ib c').
Proof.
  unfold r_case. assert (V : forall m, pm m true (map one) (psep1 (r_node c) (ws_ >> plit (str ",") >> ws_)) (psep1 (r_node c') (ws_ >> plit (str ",") >> ws_))).
  { intros j. eapply pm_sep1; [intros; apply pm_node|]. intros j'. eapply pm_bind; [apply pm_ws|intros]. eapply pm_bind; [apply pm_lit|intros; apply pm_ws]. }
  rules.
Qed.
Lemma pm_default m : pm m true (map one) (r_default ia c) (r_default ib c'). Proof. unfold r_default. rules. Qed.
Lemma flat_r cs : map (fun x => (one (fst x), map one (snd x))) (flat_map (fun vc : list nodeS * list nodeS => map (fun x => (x, snd vc)) (fst vc)) cs) =
  flat_map (fun vc : list nodeS * list nodeS => map (fun x => (x, snd vc)) (fst vc)) (map cs2 cs).
Proof. induction cs as [|[v b] cs IH]; [reflexivity|]. cbn [flat_map map cs2 fst snd]. rewrite map_app, IH, !map_map. reflexivity. Qed.
Lemma pm_switch m : pm m true nd (r_switch ia c) (r_switch ib c').
Proof.
  unfold r_switch. assert (V : forall m, pm m false (map cs2) (psep (r_case ia c) ws_) (psep (r_case ib c') ws_)).
  { intros j. eapply pm_sep; intros; [apply pm_cases|apply pm_ws]. }
  pose proof pm_default as Hd.
  eapply pm_le; [repeat (first [solve [eauto with pmdb] | match goal with |- pm _ _ _ (pret (NSwitch _ _ _)) _ => apply pm_ret; cbn [rename]; fold one; rewrite <- flat_r; reflexivity end | basic])|reflexivity].
Qed.
Hint Resolve pm_switch : pmdb.
Lemma with_op_r i f n : with_op (nm i) f (one n) = one (with_op i f n).
Proof. destruct f; reflexivity. Qed.
Ltac fin1 := apply pm_ret; first [reflexivity
  | match goal with |- context [option_map _ ?x] => destruct x; reflexivity end
  | unfold same; rewrite map_id; reflexivity
  | match goal with x : option op |- _ => destruct x; reflexivity end
  | match goal with x : option (list (spanned rstring)) |- _ => destruct x as [[|? [|? ?]]|]; reflexivity end].
Ltac atom := eapply pm_le; [repeat (first [solve [eauto with pmdb] | match goal with |- pm _ _ _ (pret _) (pret _) => fin1 end | basic])|reflexivity].
Lemma pm_atoms fuel m : Forall2 (pm m true nd) (prefix_atoms o ia c fuel) (prefix_atoms o ib c' fuel).
Proof.
  unfold prefix_atoms. cbn [map app prefixes fst snd].
  repeat (constructor; [try solve [atom]|]); try constructor.
Qed.
Lemma pm_posts min lhs m : Forall2 (pm m true nd) (posts c min lhs) (posts c' min (one lhs)).
Proof.
  unfold posts. cbn [map app infixes fst snd].
  repeat (constructor; [try match goal with |- pm _ _ _ (if ?b then _ else _) _ => destruct b; [|apply pm_fail] end; try solve [atom]|]); constructor.
Qed.
Lemma pm_first {A} m e (f : A -> A) ps qs : Forall2 (pm m e f) ps qs -> pm m e f (pfirst ps) (pfirst qs).
Proof. induction 1 as [|p q ps qs H Hs IH]; cbn [pfirst]; [apply pm_fail|]. eapply pm_le; [apply pm_alt; [exact H|exact IH]|]. destruct e; reflexivity. Qed.
Lemma one_at x s e : 0 < e -> one (x, mkSpan s e ia) = (nd x, mkSpan (s + k) (e + k) ib).
Proof. intros H. unfold one. cbn [fst snd]. now rewrite mv_at. Qed.
Lemma pm_step {A} (f : A -> A) (r r' : Parse.pres A) (j n : nat) (t s : rstring) e : n + 1 <= j ->
  match r, r' with
  | PMatch a i, PMatch b i' => b = f a /\ i' = (fst i + k, snd i) /\ j + b2n false <= fst i /\ (fst i = j -> snd i = t)
  | PFail, PFail => True
  | PFuel, PFuel => True
  | _, _ => False
  end ->
  match r, r' with
  | PMatch a i, PMatch b i' => b = f a /\ i' = (fst i + k, snd i) /\ n + b2n e <= fst i /\ (fst i = n -> snd i = s)
  | PFail, PFail => True
  | PFuel, PFuel => True
  | _, _ => False
  end.
Proof.
  intros L H. destruct r as [a i| |], r' as [b i'| |]; auto. destruct H as (H1 & H2 & H3 & H4). unfold b2n in *. repeat split; auto; [destruct e; lia|intros; lia].
Qed.
Lemma pm_loop h min start : forall m lhs, pm m false one (post_loop ia c h min start lhs) (post_loop ib c' h min (start + k) (one lhs)).
Proof.
  induction h as [|h IH]; intros m lhs n s L; cbn [post_loop]; [exact I|].
  pose proof (pm_first n true nd _ _ (pm_posts min lhs n) n s (le_n n)) as H.
  destruct (pfirst (posts c min lhs) (n, s)) as [x [j t]| |], (pfirst (posts c' min (one lhs)) (n + k, s)) as [y j'| |]; try contradiction; try exact I.
  - destruct H as (-> & -> & L1 & R1). cbn [fst snd b2n] in *.
    specialize (IH j (x, mkSpan start j ia) j t (le_n j)). rewrite one_at in IH by lia.
    exact (pm_step one _ _ j n t s false L1 IH).
  - repeat split; cbn; auto; lia.
Qed.
End Rules.
Lemma pm_climb fuel : forall min m, pm m true one (climb o ia fuel min) (climb o ib fuel min).
Proof.
  induction fuel as [|fuel IH]; intros min m n s L; cbn [climb]; [exact I|].
  pose proof (pm_first n true nd _ _ (pm_atoms _ _ IH fuel n) n s (le_n n)) as H.
  destruct (pfirst _ (n, s)) as [x [j t]| |], (pfirst _ (n + k, s)) as [y j'| |]; try contradiction; try exact I.
  destruct H as (-> & -> & L1 & R1). cbn [fst snd b2n] in *.
  pose proof (pm_loop _ _ IH (S (length t)) min n j (x, mkSpan n j ia) j t (le_n j)) as P. rewrite one_at in P by lia.
  exact (pm_step _ _ IH one _ _ j n t s true L1 P).
Qed.
(** The whole text: something is taken, so that no position is that of nothing at the start. *)
Definition raw (id fuel : nat) : P (option (list nodeS) * (nat * nat)) :=
  ws_ >> on s <- ppos; on code <- popt (psep (climb o id fuel 0) (plit (str ";") <|> ws_)); on e <- ppos; ws_ >> pret (code, (s, e)).
Definition cooked (id : nat) (x : option (list nodeS) * (nat * nat)) : list nodeS :=
  add_implicit_none (match fst x with Some c => c | None => [] end) (mkSpan (fst (snd x)) (snd (snd x)) id) false.
Lemma r_code_raw id fuel i : r_code o id fuel i = match raw id fuel i with PMatch x i' => PMatch (cooked id x) i' | PFail => PFail | PFuel => PFuel end.
Proof.
  unfold r_code, raw, pbind, ppos, pret. destruct (ws_ i) as [u i1| |]; auto. destruct (popt _ i1) as [c i2| |]; auto. destruct (ws_ i2) as [v i3| |]; auto.
Qed.
Definition shifted (x : option (list nodeS) * (nat * nat)) := (option_map (map one) (fst x), (fst (snd x) + k, snd (snd x) + k)).
Lemma pm_raw m fuel : pm m false shifted (raw ia fuel) (raw ib fuel).
Proof.
  unfold raw. eapply pm_le with (e' := false || (false || (false || false))); [|reflexivity].
  eapply pm_bind; [apply pm_ws|intros]. apply pm_pos. intros s L.
  eapply pm_bind; [eapply pm_opt, pm_sep; [intros; apply pm_climb|intros; apply pm_semi]|intros code]. apply pm_pos. intros e Le.
  eapply pm_bind; [apply pm_ws|intros]. apply pm_ret. reflexivity.
Qed.
Lemma pm_parts m fuel : pm m false (option_map (map one)) (popt (psep (climb o ia fuel 0) (plit (str ";") <|> ws_))) (popt (psep (climb o ib fuel 0) (plit (str ";") <|> ws_))).
Proof. eapply pm_opt, pm_sep; [intros; apply pm_climb|intros; apply pm_semi]. Qed.
Lemma stays {A} (p q : P A) (f : A -> A) m n s a i : pm m false f p q -> m <= n -> p (n, s) = PMatch a i -> n <= fst i /\ (fst i = n -> snd i = s).
Proof.
  intros H L E. specialize (H n s L). rewrite E in H. destruct (q (n + k, s)) as [b j| |]; try contradiction. destruct H as (_ & _ & H3 & H4). cbn in H3. split; auto; lia.
Qed.
Lemma raw_taken fuel (text : rstring) c s e n : raw ia fuel (0, text) = PMatch (c, (s, e)) (n, []) -> text <> [] -> 0 < e.
Proof.
  unfold raw, pbind, ppos, pret. intros H T. destruct (ws_ (0, text)) as [u [n1 t1]| |] eqn:E1; try discriminate.
  destruct (popt _ (n1, t1)) as [x [n2 t2]| |] eqn:E2; try discriminate. destruct (ws_ (n2, t2)) as [v i3| |] eqn:E3; try discriminate.
  injection H as <- <- <- ->. cbn [fst].
  destruct (stays _ _ _ 0 0 text _ _ (pm_ws 0) (le_n 0) E1) as [A1 B1]. destruct (stays _ _ _ 0 n1 t1 _ _ (pm_parts 0 fuel) (Nat.le_0_l n1) E2) as [A2 B2]. cbn [fst snd] in *.
  destruct n2; [|lia]. exfalso. assert (n1 = 0) as -> by lia. rewrite B1 in * by reflexivity. rewrite B2 in E3 by reflexivity. rewrite E1 in E3. injection E3 as _ _ E. exact (T E).
Qed.
Lemma cooked_r x : 0 < snd (snd x) -> cooked ib (shifted x) = map one (cooked ia x).
Proof. destruct x as [c [s e]]. unfold cooked, shifted. cbn [fst snd]. intros H. rewrite none_r, mv_at by exact H. destruct c; reflexivity. Qed.
Lemma code_slid fuel (text : rstring) : text <> [] ->
  match r_code o ib fuel (k, text) with PMatch a i => match snd i with [] => PMatch a i | _ => PFail end | PFail => PFail | PFuel => PFuel end =
  match whole (r_code o ia fuel) text with PMatch a i => PMatch (map one a) (fst i + k, snd i) | PFail => PFail | PFuel => PFuel end.
Proof.
  intros T. unfold whole. rewrite !r_code_raw. pose proof (pm_raw 0 fuel 0 text (le_n 0)) as H. cbn [Nat.add] in H.
  change (0 + k) with k in H. revert H. destruct (raw ia fuel (0, text)) as [x [n r]| |] eqn:E; destruct (raw ib fuel (k, text)) as [y j| |] eqn:E2; intros H; try contradiction; try reflexivity.
  destruct H as (-> & -> & _ & _). cbn [fst snd]. destruct r as [|b r]; [|reflexivity]. cbn [fst snd].
  rewrite cooked_r; [reflexivity|]. destruct x as [c [s e]]. exact (raw_taken fuel text c s e n E T).
Qed.
End Grammar.
End Move.

(** ** White space before *)
Lemma eat_one n : eat n one_ws.
Proof.
  apply eat_alt.
  - apply eat_alt; [apply eat_bind; [apply eat_char|intros; apply fin_ret]|apply eat_bind; [(apply eat_lit; discriminate)|intros]].
    apply fin_alt; [apply fin_bind; [apply fin_opt|intros]|]; apply fin_lit.
  - apply eat_alt.
    + apply eat_bind_late.
      * apply fin_opt. apply fin_bind; [apply fin_lit|intros]. apply fin_bind; [apply fin_star|intros; apply fin_ret].
        apply eat_bind_late; [apply fin_not|intros; apply eat_char].
        apply fin_alt; [apply fin_bind; [apply fin_opt|intros]|]; apply fin_lit.
      * intros _. apply eat_alt; [apply eat_bind_late; [apply fin_opt, fin_lit|intros]|]; (apply eat_lit; discriminate).
    + apply eat_bind; [(apply eat_lit; discriminate)|intros]. apply fin_bind; [apply fin_star|intros; apply fin_ret].
      apply eat_bind_late; [apply fin_not|intros; apply eat_char].
      apply fin_alt; [apply fin_bind; [apply fin_opt|intros]|]; apply fin_lit.
Qed.
Lemma ws_go_fuel : forall h h' (i : inp), length (snd i) < h -> length (snd i) < h' ->
  match pstar_go h one_ws i, pstar_go h' one_ws i with
  | PMatch _ a, PMatch _ b => a = b
  | PFail, PFail => True
  | PFuel, PFuel => True
  | _, _ => False
  end.
Proof.
  induction h as [|h IH]; intros h' i L L'; [lia|]. destruct h' as [|h']; [lia|]. cbn [pstar_go].
  pose proof (eat_one (S (length (snd i))) i (Nat.lt_succ_diag_r _)) as H. destruct (one_ws i) as [u i'| |]; auto.
  specialize (IH h' i' (Nat.lt_le_trans _ _ _ H (proj1 (Nat.lt_succ_r _ _) L)) (Nat.lt_le_trans _ _ _ H (proj1 (Nat.lt_succ_r _ _) L'))). destruct (pstar_go h one_ws i'), (pstar_go h' one_ws i'); auto.
Qed.
Lemma gap_go g : forall m, length g <= m -> gap g -> forall s h h' n, length (g ++ s) < h -> length s < h' ->
  match pstar_go h one_ws (n, g ++ s), pstar_go h' one_ws (n + bytes_in g, s) with
  | PMatch _ a, PMatch _ b => a = b
  | PFail, PFail => True
  | PFuel, PFuel => True
  | _, _ => False
  end.
Proof.
  intros m. revert g. induction m as [|m IH]; intros g Hm Hg s h h' n L L'.
  - destruct g; [|cbn in Hm; lia]. cbn [app]. change (bytes_in []) with 0. rewrite Nat.add_0_r. apply ws_go_fuel; assumption.
  - destruct (list_eq_dec N.eq_dec g []) as [->|Hn].
    { cbn [app]. change (bytes_in []) with 0. rewrite Nat.add_0_r. apply ws_go_fuel; assumption. }
    destruct (one_piece g Hg Hn) as (p & g' & -> & Hg' & Hp & E).
    assert (Lp : 1 <= length p) by (destruct p; [congruence|cbn; lia]). rewrite !app_length in *.
    destruct h as [|h]; [lia|]. cbn [pstar_go]. rewrite <- app_assoc. rewrite E.
    specialize (IH g' ltac:(lia) Hg' s h h' (n + bytes_in p) ltac:(rewrite app_length; lia) L').
    rewrite bytes_app, Nat.add_assoc. destruct (pstar_go h one_ws _); auto.
Qed.
Lemma same_end {A} (r r' : Parse.pres A) :
  match r, r' with
  | PMatch _ a, PMatch _ b => a = b
  | PFail, PFail => True
  | PFuel, PFuel => True
  | _, _ => False
  end ->
  match r with PMatch _ i => PMatch tt i | PFail => PFail | PFuel => PFuel end = match r' with PMatch _ i => PMatch tt i | PFail => PFail | PFuel => PFuel end.
Proof. destruct r, r'; intros H; try contradiction; congruence. Qed.
Lemma ws_before (g s : rstring) : gap g -> ws_ (0, g ++ s) = ws_ (bytes_in g, s).
Proof.
  intros Hg. unfold ws_. change (r_WHITESPACE <|> r_TERMINATOR <|> r_COMMENT) with one_ws. unfold pbind, pstar, pret. cbn [snd].
  pose proof (gap_go g _ (le_n _) Hg s (S (length (g ++ s))) (S (length s)) 0 ltac:(lia) ltac:(lia)) as H. cbn [Nat.add] in H.
  exact (same_end _ _ H).
Qed.
Theorem parse_before o fuel (g text : rstring) ia ib : gap g -> text <> [] ->
  parse_code o fuel (g ++ text) ib =
  match parse_code o fuel text ia with
  | PMatch a i => PMatch (rename_program (fun x => x) (slide (bytes_in g) ia ib) a) (fst i + bytes_in g, snd i)
  | PFail => PFail
  | PFuel => PFuel
  end.
Proof.
  intros Hg T. unfold parse_code. rewrite <- (code_slid (bytes_in g) ia ib o fuel text T) at 1. unfold whole, r_code. unfold pbind at 1 4. rewrite ws_before by assumption. reflexivity.
Qed.
