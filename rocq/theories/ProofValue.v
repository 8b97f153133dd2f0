(** Lemmas about values: equality of constants decides identity. *)
From Verif Require Import Base Float NumText Vecc RleVec Bytecode Chunk Value.

Lemma list_eqb_sound {A} (eqb : A -> A -> bool) (H : forall x y, eqb x y = true -> x = y) :
  forall l l', list_eqb eqb l l' = true -> l = l'.
Proof.
  induction l as [|x l IH]; destruct l' as [|x' l']; cbn; try congruence.
  rewrite andb_true_iff; intros [Hx Hl]; f_equal; auto.
Qed.

Lemma rle_eqb_sound r r' : rle_eqb r r' = true -> r = r'.
Proof.
  apply list_eqb_sound; intros [c s] [c' s']; cbn [fst snd].
  rewrite andb_true_iff, Nat.eqb_eq, span_eqb_eq; intros [-> ->]; reflexivity.
Qed.

Lemma ceqb_sound {Fn} (kn : Fn -> Fn -> bool) v :
  (forall w, ceqb fbits_eqb kn true v w = true ->
             (forall f g, kn f g = true -> f = g) -> v = w).
Proof.
  induction v using gvalue_rect'; intros w; destruct w; cbn; try congruence; intros Heq Hk.
  - apply Bool.eqb_prop in Heq; congruence.
  - apply Z.eqb_eq in Heq; congruence.
  - apply fbits_eqb_eq in Heq; congruence.
  - apply andb_true_iff in Heq as [H1 H2]; apply Z.eqb_eq in H1, H2; congruence.
  - rewrite !andb_true_iff, !N.eqb_eq in Heq; destruct Heq as [[[-> ->] ->] ->]; reflexivity.
  - apply seqb_eq in Heq; congruence.
  - rewrite andb_true_iff, seqb_eq, N.eqb_eq in Heq; destruct Heq as [-> ->]; reflexivity.
  - apply andb_true_iff in Heq as [Hs Heq]; apply andb_true_iff in Hs as [H1 H2];
      apply N.eqb_eq in H1, H2; subst; f_equal.
    revert data Heq; induction H as [|x l Hx Hl IH]; destruct data as [|y t]; try congruence.
    rewrite andb_true_iff; intros [Ha Hb]; f_equal; auto.
  - apply N.eqb_eq in Heq; congruence.
  - apply andb_true_iff in Heq as [H1 H2]; f_equal; auto.
  - f_equal; auto.
Qed.

(** Comparison of two functions, floats compared by bits, is sound. *)
Lemma function_eqb_sound : forall f g, function_eqb fbits_eqb true f g = true -> f = g.
Proof.
  fix IH 1; intros [n s a u [ops spans consts syms]] [n' s' a' u' [ops' spans' consts' syms']].
  cbn [function_eqb].
  set (go := fix go (l l' : list value) : bool := _).
  rewrite !andb_true_iff, seqb_eq, span_eqb_eq, !N.eqb_eq.
  intros [[[[[[[-> ->] ->] ->] Hops] Hsp] Hgo] Hsym].
  apply list_eqb_sound in Hops; [subst | intros; apply N.eqb_eq; auto].
  apply rle_eqb_sound in Hsp; subst.
  apply list_eqb_sound in Hsym; [subst | intros; apply seqb_eq; auto].
  cut (consts = consts'); [intros ->; reflexivity|].
  revert consts' Hgo; induction consts as [|x l IHl]; destruct consts' as [|x' l'];
    cbn [go]; try congruence.
  rewrite andb_true_iff; intros [Hx Hl]; f_equal; [clear IHl Hl | auto].
  clear go; revert x' Hx; induction x using gvalue_rect'; intros w; destruct w; cbn; try congruence; intros Heq.
  - apply Bool.eqb_prop in Heq; congruence.
  - apply Z.eqb_eq in Heq; congruence.
  - apply fbits_eqb_eq in Heq; congruence.
  - apply andb_true_iff in Heq as [H1 H2]; apply Z.eqb_eq in H1, H2; congruence.
  - rewrite !andb_true_iff, !N.eqb_eq in Heq; destruct Heq as [[[-> ->] ->] ->]; reflexivity.
  - apply seqb_eq in Heq; congruence.
  - rewrite andb_true_iff, seqb_eq, N.eqb_eq in Heq; destruct Heq as [-> ->]; reflexivity.
  - apply andb_true_iff in Heq as [Hs Heq]; apply andb_true_iff in Hs as [H1 H2];
      apply N.eqb_eq in H1, H2; subst; f_equal.
    revert data Heq; induction H as [|x l0 Hx Hl0 IHH]; destruct data as [|y t]; try congruence.
    rewrite andb_true_iff; intros [Ha Hb]; f_equal; auto.
  - apply N.eqb_eq in Heq; congruence.
  - apply andb_true_iff in Heq as [H1 H2]; f_equal; auto.
  - f_equal. destruct f as [f|], f0 as [g|]; try congruence. f_equal; apply IH; exact Heq.
Qed.

Lemma const_eqb_sound v w : const_eqb v w = true -> v = w.
Proof.
  intros H; eapply ceqb_sound; [exact H|].
  intros [f|f u] [g|g u']; try congruence.
  intros H'; apply function_eqb_sound in H'; congruence.
Qed.
