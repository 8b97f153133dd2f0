(** The parser comes to an end on every text, and the bounds of the model do not matter. *)
From Verif Require Import Base Float NumText Ast Parse.

(** ** The bounds are never reached

    [fin n p]: on inputs shorter than [n], [p] does not run out of fuel and does not add to
    the input; [eat n p]: it even takes something away. *)
Definition fin {A} (n : nat) (p : P A) : Prop := forall i : inp, length (snd i) < n ->
  match p i with PMatch _ i' => length (snd i') <= length (snd i) | PFail => True | PFuel => False end.
Definition eat {A} (n : nat) (p : P A) : Prop := forall i : inp, length (snd i) < n ->
  match p i with PMatch _ i' => length (snd i') < length (snd i) | PFail => True | PFuel => False end.

Lemma eat_fin {A} n (p : P A) : eat n p -> fin n p.
Proof. intros H i Hi. specialize (H i Hi). destruct (p i); auto. lia. Qed.
Lemma fin_less {A} n k (p : P A) : fin n p -> k <= n -> fin k p.
Proof. intros H Hk i Hi. apply H. lia. Qed.
Lemma eat_less {A} n k (p : P A) : eat n p -> k <= n -> eat k p.
Proof. intros H Hk i Hi. apply H. lia. Qed.
Lemma fin_ret {A} n (a : A) : fin n (pret a).
Proof. intros i _. apply le_n. Qed.
Lemma fin_fail {A} n : fin n (@pfail A).
Proof. intros i _. exact I. Qed.
Lemma eat_fail {A} n : eat n (@pfail A).
Proof. intros i _. exact I. Qed.
Lemma fin_bind {A B} n (p : P A) (k : A -> P B) : fin n p -> (forall a, fin n (k a)) -> fin n (pbind p k).
Proof.
  intros Hp Hk i Hi. unfold pbind. specialize (Hp i Hi). destruct (p i) as [a i'| |]; auto.
  specialize (Hk a i' ltac:(lia)). destruct (k a i'); auto. lia.
Qed.
Lemma fin_bind_eat {A B} n (p : P A) (k : A -> P B) : eat n p -> (forall a, fin (pred n) (k a)) -> fin n (pbind p k).
Proof.
  intros Hp Hk i Hi. unfold pbind. specialize (Hp i Hi). destruct (p i) as [a i'| |]; auto.
  specialize (Hk a i' ltac:(lia)). destruct (k a i'); auto. lia.
Qed.
Lemma eat_bind {A B} n (p : P A) (k : A -> P B) : eat n p -> (forall a, fin (pred n) (k a)) -> eat n (pbind p k).
Proof.
  intros Hp Hk i Hi. unfold pbind. specialize (Hp i Hi). destruct (p i) as [a i'| |]; auto.
  specialize (Hk a i' ltac:(lia)). destruct (k a i'); auto. lia.
Qed.
Lemma eat_bind_late {A B} n (p : P A) (k : A -> P B) : fin n p -> (forall a, eat n (k a)) -> eat n (pbind p k).
Proof.
  intros Hp Hk i Hi. unfold pbind. specialize (Hp i Hi). destruct (p i) as [a i'| |]; auto.
  specialize (Hk a i' ltac:(lia)). destruct (k a i'); auto. lia.
Qed.
Lemma fin_alt {A} n (p q : P A) : fin n p -> fin n q -> fin n (palt p q).
Proof. intros Hp Hq i Hi. unfold palt. specialize (Hp i Hi). specialize (Hq i Hi). destruct (p i); auto. Qed.
Lemma eat_alt {A} n (p q : P A) : eat n p -> eat n q -> eat n (palt p q).
Proof. intros Hp Hq i Hi. unfold palt. specialize (Hp i Hi). specialize (Hq i Hi). destruct (p i); auto. Qed.
Lemma fin_opt {A} n (p : P A) : fin n p -> fin n (popt p).
Proof. intros Hp i Hi. unfold popt. specialize (Hp i Hi). destruct (p i); auto. Qed.
Lemma fin_not {A} n (p : P A) : fin n p -> fin n (pnot p).
Proof. intros Hp i Hi. unfold pnot. specialize (Hp i Hi). destruct (p i); auto. Qed.
Lemma fin_pos n : fin n ppos.
Proof. intros i _. apply le_n. Qed.
Lemma eat_char n f : eat n (pchar f).
Proof. intros [p s] _. unfold pchar. destruct s as [|c t]; cbn; auto. destruct (f c); cbn; auto. Qed.
Lemma fin_lit n s : fin n (plit s).
Proof.
  induction s as [|c s IH]; cbn [plit]; [apply fin_ret|]. apply fin_bind; [apply eat_fin, eat_char|]. intros _. exact IH.
Qed.
Lemma eat_lit n s : s <> [] -> eat n (plit s).
Proof. destruct s as [|c s]; [contradiction|intros _]. cbn [plit]. apply eat_bind; [apply eat_char|]. intros _. apply fin_lit. Qed.
Lemma prun_go_fin f : forall s n, length (snd (snd (prun_go f n s))) + length (fst (prun_go f n s)) = length s.
Proof.
  induction s as [|c s IH]; intros n; cbn [prun_go]; auto.
  destruct (f c); cbn; [|lia]. specialize (IH (n + N.to_nat (utf8_len c))). destruct (prun_go f _ s). cbn in *. lia.
Qed.
Lemma fin_run n f : fin n (prun f).
Proof.
  intros [k s] _. unfold prun. cbn [fst snd]. pose proof (prun_go_fin f s k) as H. destruct (prun_go f k s). cbn in *. lia.
Qed.
Lemma eat_run1 n f : eat n (prun1 f).
Proof.
  intros [k s] _. unfold prun1, pbind, prun. cbn [fst snd]. pose proof (prun_go_fin f s k) as H.
  destruct (prun_go f k s) as [[|c r] i]; cbn in *; auto. lia.
Qed.
Lemma star_go_fin {A} n (p : P A) : eat n p -> forall k (i : inp), length (snd i) < k -> length (snd i) < n ->
  match pstar_go k p i with PMatch _ i' => length (snd i') <= length (snd i) | PFail => True | PFuel => False end.
Proof.
  intros Hp k. induction k as [|k IH]; intros i Hk Hn; [lia|]. cbn [pstar_go].
  pose proof (Hp i Hn) as H. destruct (p i) as [a i'| |]; auto.
  specialize (IH i' ltac:(lia) ltac:(lia)). destruct (pstar_go k p i'); auto. lia.
Qed.
Lemma fin_star {A} n (p : P A) : eat n p -> fin n (pstar p).
Proof. intros Hp i Hi. apply (star_go_fin n p Hp); lia. Qed.
Lemma eat_sep1 {A B} n (p : P A) (sep : P B) : eat n p -> fin n sep -> eat n (psep1 p sep).
Proof.
  intros Hp Hs. apply eat_bind; auto. intros a. apply fin_bind; [|intros; apply fin_ret]. apply fin_star.
  apply (eat_less n); [|lia]. apply eat_bind_late; auto.
Qed.
Lemma fin_sep {A B} n (p : P A) (sep : P B) : eat n p -> fin n sep -> fin n (psep p sep).
Proof. intros Hp Hs. apply fin_alt; [apply eat_fin, eat_sep1; auto|apply fin_ret]. Qed.
Lemma fin_first {A} n (l : list (P A)) : Forall (fin n) l -> fin n (pfirst l).
Proof. induction 1; [apply fin_fail|apply fin_alt; auto]. Qed.
Lemma eat_first {A} n (l : list (P A)) : Forall (eat n) l -> eat n (pfirst l).
Proof. induction 1; [apply eat_fail|apply eat_alt; auto]. Qed.

Ltac lit := apply eat_lit; discriminate.
Lemma fin_ws_ n : fin n ws_.
Proof.
  apply fin_bind; [apply fin_star|intros; apply fin_ret]. apply eat_alt.
  - apply eat_alt; [apply eat_bind; [apply eat_char|intros; apply fin_ret]|apply eat_bind; [lit|intros]].
    apply fin_alt; [apply fin_bind; [apply fin_opt|intros]|]; apply fin_lit.
  - apply eat_alt.
    + apply eat_bind_late.
      * apply fin_opt. apply fin_bind; [apply fin_lit|intros]. apply fin_bind; [apply fin_star|intros; apply fin_ret].
        apply eat_bind_late; [apply fin_not|intros; apply eat_char].
        apply fin_alt; [apply fin_bind; [apply fin_opt|intros]|]; apply fin_lit.
      * intros _. apply eat_alt; [apply eat_bind_late; [apply fin_opt, fin_lit|intros]|]; lit.
    + apply eat_bind; [lit|intros]. apply fin_bind; [apply fin_star|intros; apply fin_ret].
      apply eat_bind_late; [apply fin_not|intros; apply eat_char].
      apply fin_alt; [apply fin_bind; [apply fin_opt|intros]|]; apply fin_lit.
Qed.
Lemma eat_ws1 n : eat n ws1.
Proof.
  assert (H : forall n, eat n (r_WHITESPACE <|> r_COMMENT)).
  { intros k. apply eat_alt.
    - apply eat_alt; [apply eat_bind; [apply eat_char|intros; apply fin_ret]|apply eat_bind; [lit|intros]].
      apply fin_alt; [apply fin_bind; [apply fin_opt|intros]|]; apply fin_lit.
    - apply eat_bind; [lit|intros]. apply fin_bind; [apply fin_star|intros; apply fin_ret].
      apply eat_bind_late; [apply fin_not|intros; apply eat_char].
      apply fin_alt; [apply fin_bind; [apply fin_opt|intros]|]; apply fin_lit. }
  unfold ws1. apply eat_bind; auto. intros _. apply fin_bind; [apply fin_star; auto|intros; apply fin_ret].
Qed.
Lemma fin_ws0 n : fin n ws0.
Proof. apply fin_bind; [apply fin_run|intros; apply fin_ret]. Qed.
Lemma eat_kw n w : w <> [] -> eat n (kw w).
Proof. intros H. apply eat_bind; [apply eat_lit; auto|intros]. apply fin_not, eat_fin, eat_char. Qed.
Lemma eat_ident n : eat n r_IDENT.
Proof.
  apply eat_bind; [apply eat_char|intros]. apply fin_bind; [apply fin_run|intros].
  destruct (existsb _ _); [apply fin_fail|apply fin_ret].
Qed.
Lemma eat_int n f : eat n (r_int f).
Proof.
  unfold r_int. repeat apply eat_alt.
  1-3: apply eat_bind; [lit|intros]; apply fin_bind; [apply eat_fin, eat_run1|intros; apply fin_ret].
  apply eat_bind_late; [apply fin_opt, fin_lit|intros]. apply eat_bind; [apply eat_run1|intros; apply fin_ret].
Qed.
Lemma eat_float n o : eat n (r_FLOAT o).
Proof.
  apply eat_bind_late; [apply fin_opt, fin_lit|intros]. apply eat_bind; [apply eat_run1|intros].
  apply fin_bind; [apply fin_lit|intros]. apply fin_bind; [apply fin_not, fin_lit|intros].
  apply fin_bind; [apply fin_run|intros; apply fin_ret].
Qed.
Lemma eat_hex n : eat n r_HEX.
Proof.
  apply eat_bind; [lit|intros]. apply fin_bind; [apply eat_fin, eat_run1|intros h].
  destruct (hex_to_rgba h); [apply fin_ret|apply fin_fail].
Qed.
Lemma eat_string n : eat n r_STRING.
Proof.
  apply eat_bind; [lit|intros]. apply fin_bind; [apply fin_run|intros].
  apply fin_bind; [apply fin_lit|intros; apply fin_ret].
Qed.
Lemma eat_sp_of {A} id n (p : P A) : eat n p -> eat n (sp_of id p).
Proof.
  intros H. apply eat_bind_late; [apply fin_pos|intros]. apply eat_bind; auto. intros.
  apply fin_bind; [apply fin_pos|intros; apply fin_ret].
Qed.
Lemma fin_commasep {A} n (p : P A) : eat n p -> fin n (commasep p).
Proof.
  intros H. apply fin_bind; [apply fin_ws_|intros]. apply fin_bind.
  - apply fin_sep; [|apply fin_lit]. apply eat_bind_late; [apply fin_ws_|intros]. apply eat_bind; auto. intros.
    apply fin_bind; [apply fin_ws_|intros; apply fin_ret].
  - intros. apply fin_bind; [apply fin_opt, fin_lit|intros]. apply fin_bind; [apply fin_ws_|intros; apply fin_ret].
Qed.
Lemma eat_commasepp {A} n (p : P A) : eat n p -> eat n (commasepp p).
Proof.
  intros H. apply eat_bind_late; [apply fin_ws_|intros]. apply eat_bind.
  - apply eat_sep1; [|apply fin_lit]. apply eat_bind_late; [apply fin_ws_|intros]. apply eat_bind; auto. intros.
    apply fin_bind; [apply fin_ws_|intros; apply fin_ret].
  - intros. apply fin_bind; [apply fin_opt, fin_lit|intros]. apply fin_bind; [apply fin_ws_|intros; apply fin_ret].
Qed.

(** The rules, by their shape; [more] closes the recursive uses. *)
Ltac leaf_fin more :=
  first [apply fin_ret | apply fin_fail | apply fin_pos | apply fin_lit | apply fin_ws_ | apply fin_ws0 | apply fin_run].
Ltac leaf_eat more :=
  first [ apply eat_kw; discriminate | apply eat_lit; discriminate | apply eat_char | apply eat_ws1 | apply eat_ident
        | apply eat_int | apply eat_float | apply eat_hex | apply eat_string | apply eat_run1 | apply eat_fail | solve [more] ].
Ltac eats more :=
  first [ leaf_eat more
        | apply eat_sp_of; eats more
        | apply eat_commasepp; eats more
        | apply eat_sep1; [eats more|fins more]
        | apply eat_alt; [eats more|eats more]
        | apply eat_bind; [eats more|intros; fins more]
        | apply eat_bind_late; [fins more|intros; eats more] ]
with fins more :=
  first [ leaf_fin more
        | apply fin_opt; fins more
        | apply fin_not; fins more
        | apply fin_sep; [eats more|fins more]
        | apply fin_commasep; eats more
        | apply fin_alt; [fins more|fins more]
        | apply fin_bind_eat; [eats more|intros; fins more]
        | apply fin_bind; [fins more|intros; fins more]
        | apply eat_fin; eats more ].

Lemma eat_literal o fuel : eat fuel (r_literal o fuel).
Proof.
  induction fuel as [|k IH]; [intros i H; lia|]. cbn [r_literal].
  repeat apply eat_alt.
  4: apply eat_bind; [apply eat_hex|intros [[[? ?] ?] ?]; apply fin_ret].
  all: eats ltac:(eapply eat_less; [exact IH|lia]).
Qed.

Section Grammar.
Context (o : oracle) (id : nat) (climb : nat -> P nodeS) (n : nat) (Hclimb : forall k, eat (pred n) (climb k)).
Ltac rec := eapply eat_less; [apply Hclimb|lia].

Lemma eat_block f : eat n (r_block id climb f).
Proof using Hclimb. unfold r_block, r_node. eats ltac:(rec). Qed.
Lemma eat_if fuel : n <= fuel -> eat n (r_if id climb fuel).
Proof using Hclimb.
  revert n Hclimb. induction fuel as [|k IH]; intros n Hclimb Hn.
  { intros i Hi. lia. }
  cbn [r_if]. unfold r_node.
  assert (B : forall b f, b <= n -> eat b (r_block id climb f)).
  { intros b f Hb. apply (eat_less n); auto. unfold r_block, r_node. eats ltac:(eapply eat_less; [apply Hclimb|lia]). }
  assert (J : eat (pred n) (r_if id climb k)).
  { apply IH; [|lia]. intros j. eapply eat_less; [apply Hclimb|lia]. }
  eats ltac:(first [eapply eat_less; [apply Hclimb|lia] | apply B; lia | eapply eat_less; [exact J|lia]]).
Qed.
Lemma eat_args : eat n (args_ climb).
Proof using Hclimb. unfold args_, r_node. eats ltac:(rec). Qed.
Ltac recs := first [eapply eat_less; [apply Hclimb|lia] | eapply eat_less; [apply eat_block|lia]
                   | eapply eat_less; [apply eat_args|lia] | eapply eat_less; [apply eat_literal|lia] ].
Lemma eat_switch : eat n (r_switch id climb).
Proof using Hclimb. unfold r_switch, r_case, r_default, r_node. eats ltac:(recs). Qed.

Lemma eat_atoms fuel : n <= fuel -> Forall (eat n) (prefix_atoms o id climb fuel).
Proof using Hclimb.
  intros Hn. unfold prefix_atoms, ident, r_node, r_INT32. apply Forall_app; split; [|apply Forall_app; split].
  - repeat apply Forall_cons; try apply Forall_nil.
    7: apply eat_if; auto.
    7: apply eat_switch.
    all: eats ltac:(recs).
  - apply Forall_forall. intros p Hp. apply in_map_iff in Hp as (x & <- & Hx).
    apply eat_bind; [apply eat_lit|intros; fins ltac:(recs)].
    repeat (destruct Hx as [<-|Hx]; [discriminate|]). destruct Hx.
  - repeat apply Forall_cons; try apply Forall_nil.
    all: eats ltac:(recs).
Qed.
Lemma eat_posts min lhs : Forall (eat n) (posts climb min lhs).
Proof using Hclimb.
  unfold posts, r_node. apply Forall_app; split.
  - apply Forall_forall. intros p Hp. apply in_map_iff in Hp as (x & <- & Hx).
    destruct (min <=? fst x); [|apply eat_fail]. apply eat_bind_late; [apply fin_ws_|intros].
    apply eat_bind; [apply eat_lit|intros; fins ltac:(recs)].
    repeat (destruct Hx as [<-|Hx]; [discriminate|]). destruct Hx.
  - repeat apply Forall_cons; try apply Forall_nil.
    all: eats ltac:(recs).
Qed.
Lemma fin_post_loop min start : forall k lhs (i : inp), length (snd i) < k -> length (snd i) < n ->
  match post_loop id climb k min start lhs i with
  | PMatch _ i' => length (snd i') <= length (snd i) | PFail => True | PFuel => False
  end.
Proof using Hclimb.
  induction k as [|k IH]; intros lhs i Hk Hn; [lia|]. cbn [post_loop].
  pose proof (eat_first n _ (eat_posts min lhs) i Hn) as H. destruct (pfirst (posts climb min lhs) i) as [x i'| |]; auto.
  specialize (IH (x, mkSpan start (fst i') id) i' ltac:(lia) ltac:(lia)). destruct (post_loop id climb k _ _ _ i'); auto. lia.
Qed.
End Grammar.

Lemma eat_climb o id fuel : forall min, eat (pred fuel) (climb o id fuel min).
Proof.
  induction fuel as [|k IH]; intros min i Hi; [inversion Hi|]. cbn [pred] in Hi. cbn [climb].
  pose proof (eat_first k _ (eat_atoms o id (climb o id k) k IH k (le_n k)) i Hi) as H.
  destruct (pfirst (prefix_atoms o id (climb o id k) k) i) as [x i'| |]; auto.
  pose proof (fin_post_loop id (climb o id k) k IH min (fst i) (S (length (snd i')))
                (x, mkSpan (fst i) (fst i') id) i' (Nat.lt_succ_diag_r _) ltac:(lia)) as H2.
  destruct (post_loop id _ _ _ _ _ i'); auto. lia.
Qed.
Lemma fin_code o id fuel : fin (pred fuel) (r_code o id fuel).
Proof. unfold r_code. fins ltac:(eapply eat_less; [apply eat_climb|lia]). Qed.

Lemma parse_code_ends o fuel (text : rstring) id : S (length text) < fuel -> parse_code o fuel text id <> PFuel.
Proof.
  intros H. unfold parse_code, whole. pose proof (fin_code o id fuel ((0, text) : inp) ltac:(cbn; lia)) as F.
  destruct (r_code o id fuel (0, text)) as [a i| |]; try contradiction; [destruct (snd i)|]; intros E; inversion E.
Qed.
Lemma parse_literal_ends o fuel (text : rstring) : length text < fuel -> parse_literal o fuel text <> PFuel.
Proof.
  intros H. unfold parse_literal, whole. pose proof (eat_literal o fuel ((0, text) : inp) ltac:(cbn; lia)) as F.
  destruct (r_literal o fuel (0, text)) as [a i| |]; try contradiction; [destruct (snd i)|]; intros E; inversion E.
Qed.

(** ** More fuel makes no difference *)
Definition more {A} (p q : P A) : Prop := forall i, p i <> PFuel -> q i = p i.
Lemma more_refl {A} (p : P A) : more p p.
Proof. intros i _. reflexivity. Qed.
Lemma more_bind {A B} (p q : P A) (k h : A -> P B) : more p q -> (forall a, more (k a) (h a)) -> more (pbind p k) (pbind q h).
Proof.
  intros Hp Hk i Hi. unfold pbind in *. rewrite (Hp i) by (intros E; rewrite E in Hi; contradiction).
  destruct (p i); auto. apply Hk; auto.
Qed.
Lemma more_alt {A} (p q p' q' : P A) : more p p' -> more q q' -> more (palt p q) (palt p' q').
Proof.
  intros Hp Hq i Hi. unfold palt in *. rewrite (Hp i) by (intros E; rewrite E in Hi; contradiction).
  destruct (p i); auto.
Qed.
Lemma more_opt {A} (p q : P A) : more p q -> more (popt p) (popt q).
Proof. intros Hp i Hi. unfold popt in *. rewrite (Hp i) by (intros E; rewrite E in Hi; contradiction). reflexivity. Qed.
Lemma more_star_go {A} k (p q : P A) : more p q -> more (pstar_go k p) (pstar_go k q).
Proof.
  intros Hp. induction k as [|k IH]; intros i Hi; cbn [pstar_go] in *; auto.
  rewrite (Hp i) by (intros E; rewrite E in Hi; contradiction). destruct (p i) as [a i'| |]; auto.
  rewrite IH; auto. intros E. rewrite E in Hi. contradiction.
Qed.
Lemma more_star {A} (p q : P A) : more p q -> more (pstar p) (pstar q).
Proof. intros Hp i. apply more_star_go; auto. Qed.
Lemma more_sep1 {A B} (p q : P A) (sep : P B) : more p q -> more (psep1 p sep) (psep1 q sep).
Proof.
  intros H. apply more_bind; auto. intros a. apply more_bind; [|intros; apply more_refl]. apply more_star.
  apply more_bind; [apply more_refl|auto].
Qed.
Lemma more_sep {A B} (p q : P A) (sep : P B) : more p q -> more (psep p sep) (psep q sep).
Proof. intros H. apply more_alt; [apply more_sep1; auto|apply more_refl]. Qed.
Lemma more_commasep {A} (p q : P A) : more p q -> more (commasep p) (commasep q).
Proof.
  intros H. apply more_bind; [apply more_refl|intros]. apply more_bind; [|intros; apply more_refl].
  apply more_sep. apply more_bind; [apply more_refl|intros]. apply more_bind; [auto|intros; apply more_refl].
Qed.
Lemma more_first {A} (l l' : list (P A)) : Forall2 more l l' -> more (pfirst l) (pfirst l').
Proof. induction 1; [apply more_refl|apply more_alt; auto]. Qed.
Lemma more_trans {A} (p q r : P A) : more p q -> more q r -> more p r.
Proof. intros H1 H2 i Hi. rewrite H2; auto. rewrite H1; auto. Qed.

Ltac mores rec :=
  first [ apply more_refl | solve [rec]
        | apply more_alt; [mores rec|mores rec]
        | apply more_opt; mores rec
        | apply more_sep; mores rec
        | apply more_sep1; mores rec
        | apply more_commasep; mores rec
        | apply more_star; mores rec
        | apply more_bind; [mores rec|intros; mores rec] ].

Lemma more_literal o k : more (r_literal o k) (r_literal o (S k)).
Proof.
  induction k as [|k IH]; [intros i Hi; contradiction Hi; reflexivity|].
  remember (S k) as k' eqn:E. cbn [r_literal]. rewrite E at 1. cbn [r_literal]. rewrite E in *. clear E k'.
  mores ltac:(exact IH).
Qed.
Lemma more_literals o k k' : k <= k' -> more (r_literal o k) (r_literal o k').
Proof. induction 1; [apply more_refl|]. eapply more_trans; [eassumption|apply more_literal]. Qed.

Section More.
Context (o : oracle) (id : nat) (c c' : nat -> P nodeS) (Hc : forall k, more (c k) (c' k)).
Lemma more_block f : more (r_block id c f) (r_block id c' f).
Proof using Hc. unfold r_block, r_node. mores ltac:(apply Hc). Qed.
Lemma more_args : more (args_ c) (args_ c').
Proof using Hc. unfold args_, r_node. mores ltac:(apply Hc). Qed.
Lemma more_if k : forall k', k <= k' -> more (r_if id c k) (r_if id c' k').
Proof using Hc.
  induction k as [|k IH]; intros k' Hk; [intros i Hi; contradiction Hi; reflexivity|].
  destruct k' as [|k']; [lia|]. specialize (IH k' ltac:(lia)). cbn [r_if]. unfold r_node.
  mores ltac:(first [apply Hc | apply more_block | exact IH]).
Qed.
Lemma more_switch : more (r_switch id c) (r_switch id c').
Proof using Hc. unfold r_switch, r_case, r_default, r_node. mores ltac:(first [apply Hc | apply more_block]). Qed.
Lemma more_atoms k k' : k <= k' -> Forall2 more (prefix_atoms o id c k) (prefix_atoms o id c' k').
Proof using Hc.
  intros Hk. unfold prefix_atoms, r_node. apply Forall2_app; [|apply Forall2_app].
  - repeat apply Forall2_cons; try apply Forall2_nil.
    all: mores ltac:(first [apply Hc | apply more_block | apply more_args | apply more_if; exact Hk | apply more_switch
                           | apply more_literals; exact Hk]).
  - induction prefixes as [|x l IH]; constructor; auto. mores ltac:(apply Hc).
  - repeat apply Forall2_cons; try apply Forall2_nil.
    all: mores ltac:(first [apply Hc | apply more_block | apply more_args | apply more_literals; exact Hk]).
Qed.
Lemma more_posts min lhs : Forall2 more (posts c min lhs) (posts c' min lhs).
Proof using Hc.
  unfold posts, r_node. apply Forall2_app.
  - induction infixes as [|x l IH]; constructor; auto. destruct (min <=? fst x); mores ltac:(apply Hc).
  - repeat apply Forall2_cons; try apply Forall2_nil.
    all: mores ltac:(first [apply Hc | apply more_args]).
Qed.
Lemma more_post_loop min start n : forall lhs, more (post_loop id c n min start lhs) (post_loop id c' n min start lhs).
Proof using Hc.
  induction n as [|n IH]; intros lhs; [apply more_refl|]. intros i Hi. cbn [post_loop] in *.
  pose proof (more_first _ _ (more_posts min lhs) i) as H. 
  destruct (pfirst (posts c min lhs) i) as [x i'| |]; [| |contradiction]; rewrite H by discriminate; auto.
  apply IH; auto.
Qed.
End More.

Lemma more_climb o id k : forall k' min, k <= k' -> more (climb o id k min) (climb o id k' min).
Proof.
  induction k as [|k IH]; intros k' min Hk i Hi; [contradiction Hi; reflexivity|].
  destruct k' as [|k']; [lia|]. cbn [climb] in *.
  assert (Hc : forall j, more (climb o id k j) (climb o id k' j)) by (intros j; apply IH; lia).
  pose proof (more_first _ _ (more_atoms o id _ _ Hc k k' ltac:(lia)) i) as H.
  destruct (pfirst (prefix_atoms o id (climb o id k) k) i) as [x i'| |]; [| |contradiction]; rewrite H by discriminate; auto.
  apply more_post_loop; auto.
Qed.
Lemma parse_code_more o fuel fuel' text id : fuel <= fuel' -> parse_code o fuel text id <> PFuel ->
  parse_code o fuel' text id = parse_code o fuel text id.
Proof.
  intros Hf. unfold parse_code, whole. intros H.
  assert (M : more (r_code o id fuel) (r_code o id fuel')).
  { unfold r_code. mores ltac:(apply more_climb; exact Hf). }
  rewrite M; auto. intros E. rewrite E in H. contradiction.
Qed.
Lemma parse_literal_more o fuel fuel' text : fuel <= fuel' -> parse_literal o fuel text <> PFuel ->
  parse_literal o fuel' text = parse_literal o fuel text.
Proof.
  intros Hf. unfold parse_literal, whole. intros H. rewrite (more_literals o fuel fuel'); auto.
  intros E. rewrite E in H. contradiction.
Qed.
