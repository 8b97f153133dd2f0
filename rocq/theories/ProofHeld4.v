(** Every literal the parser reads is within its type. *)
From Verif Require Import Base Float NumText Ast Parse Includes SpecArith SpecParse SpecHeld
                          ProofParse ProofStd.

(** ** The literals inside a tree *)
Definition fits (n : node) : Prop := forall l, inside (NLiteral l) n -> literal_fits l.
Definition fits_all (l : list nodeS) : Prop := Forall (fun e : nodeS => fits (fst e)) l.
Lemma fits_intro n : (forall l, n = NLiteral l -> literal_fits l) -> fits_all (children n) -> fits n.
Proof.
  intros H1 H2 l Hl. inversion Hl; subst; [eauto|]. unfold fits_all in H2. rewrite Forall_forall in H2.
  eapply (H2 (c, sp)); eauto.
Qed.
Lemma fits_inv n : fits n -> fits_all (children n).
Proof. intros H. apply Forall_forall. intros [c sp] Hc l Hl. apply H. eapply inside_child; eauto. Qed.
Lemma fits_literal l : literal_fits l -> fits (NLiteral l).
Proof. intros H. apply fits_intro; [now intros l' [= <-]|constructor]. Qed.
Lemma fits_return v : match v with Some e => fits (fst e) | None => True end -> fits (NReturn v).
Proof. intros H. apply fits_intro; [discriminate|]. destruct v; repeat constructor; auto. Qed.
Lemma fa_nil : fits_all []. Proof. constructor. Qed.
Lemma fa_cons x l : fits (fst x) -> fits_all l -> fits_all (x :: l). Proof. now constructor. Qed.
Lemma fa_app a b : fits_all a -> fits_all b -> fits_all (a ++ b). Proof. intros. apply Forall_app; auto. Qed.
Lemma program_iff ast : fits_all ast <-> program_fits ast.
Proof.
  unfold fits_all, program_fits. rewrite Forall_forall. split.
  - intros H n sp l Hn Hl. exact (H _ Hn l Hl).
  - intros H [n sp] Hn l Hl. eapply H; eauto.
Qed.
Lemma finished_fits f sp b b' : fits_all b -> finished f sp b b' -> fits_all b'.
Proof.
  intros Hb Hf. destruct Hf.
  - apply fa_cons; [|apply fa_nil]. destruct f; [now apply fits_return|apply fits_literal; constructor].
  - exact Hb.
  - apply Forall_app in Hb as [H1 H2]. apply fa_app; [exact H1|]. inversion H2; subst.
    apply fa_cons; auto. apply fa_cons; [|apply fa_nil].
    destruct f; [now apply fits_return|apply fits_literal; constructor].
  - apply Forall_app in Hb as [H1 H2]. apply fa_app; [exact H1|]. inversion H2; subst.
    apply fa_cons; [|apply fa_nil]. destruct f; cbn; [apply fits_return|]; auto.
Qed.

(** ** Literals *)
Lemma parse_int_in lo hi r s z : parse_int lo hi r s = Some z -> (lo <= z <= hi)%Z.
Proof.
  unfold parse_int. destruct (split_sign s) as [neg ds]. destruct ds; [discriminate|].
  destruct (digits_val _ _ _); [|discriminate].
  match goal with |- context [if ?b then Some ?z else None] => destruct b eqn:E; [|discriminate] end.
  intros [= <-]. lia.
Qed.
Lemma y_int lo hi : (lo <= 0 <= hi)%Z ->
  yields (fun z => (lo <= z <= hi)%Z) (r_int (fun r s => parse_int lo hi r s)).
Proof.
  intros H0. assert (K : forall r s, (lo <= or0 (parse_int lo hi r s) <= hi)%Z).
  { intros r s. destruct (parse_int lo hi r s) eqn:E; cbn; [eapply parse_int_in; eauto|lia]. }
  unfold r_int. repeat apply y_alt; repeat (apply y_seq; intros); apply y_ret; apply K.
Qed.
Lemma u8_or_lt d s : (d < 256)%N -> (u8_or d s < 256)%N.
Proof.
  intros H. unfold u8_or, u8_hex. destruct (parse_int 0 255 16 s) eqn:E; [|exact H].
  apply parse_int_in in E. lia.
Qed.
Lemma digit_lt r c n : char_digit r c = Some n -> (n < r)%N.
Proof.
  unfold char_digit.
  repeat match goal with |- context [if ?b then _ else _] => destruct b eqn:? end; intros [= <-]; lia.
Qed.
Lemma one_digit s : (length s <= 1)%nat -> (u8_or 0 s < 16)%N.
Proof.
  intros H. unfold u8_or, u8_hex, parse_int. destruct s as [|c [|? ?]]; cbn in H; [reflexivity| |lia].
  destruct (split_sign [c]) as [neg ds] eqn:E.
  assert (ds = [] \/ ds = [c] /\ neg = false) as [->|[-> ->]].
  { unfold split_sign in E. repeat match type of E with context [if ?b then _ else _] => destruct b end; injection E as <- <-; auto. }
  - reflexivity.
  - cbn [digits_val]. destruct (char_digit 16 c) eqn:D; [|reflexivity]. apply digit_lt in D.
    match goal with |- context [if ?b then Some ?z else None] => destruct b end; lia.
Qed.
Lemma y_hex : yields (fun h => let '(r, g, b, a) := h in (r < 256 /\ g < 256 /\ b < 256 /\ a < 256)%N) r_HEX.
Proof.
  unfold r_HEX. apply y_seq; intros _. apply y_seq; intros s. unfold hex_to_rgba. set (h := trim_hash s).
  assert (O : forall i, (u8_or 0 (firstn (S i - i) (skipn i h)) < 16)%N).
  { intros i. apply one_digit. rewrite firstn_length. lia. }
  destruct (length h =? 3).
  - apply y_ret. pose proof (O 0). pose proof (O 1). pose proof (O 2). lia.
  - destruct (_ || _); [apply y_fail|]. apply y_ret. repeat split; try (apply u8_or_lt; lia).
    destruct (_ =? _); [apply u8_or_lt; lia|lia].
Qed.
Lemma y_literal o fuel : yields literal_fits (r_literal o fuel).
Proof.
  induction fuel as [|fuel IH]; cbn [r_literal]; [intros i a i' E; discriminate|].
  repeat apply y_alt.
  - apply y_seq; intros _. apply y_ret. constructor.
  - apply y_seq; intros _. apply y_ret. constructor.
  - apply y_seq; intros _. apply y_ret. constructor.
  - eapply y_bind; [apply y_hex|]. intros [[[r g] b] a] H. apply y_ret. constructor; tauto.
  - apply y_seq; intros f. apply y_ret. constructor.
  - eapply y_bind; [apply (y_int (- 2 ^ 31) (2 ^ 31 - 1)); lia|intros s Hs]. do 3 (apply y_seq; intros _).
    eapply y_bind; [apply (y_int (- 2 ^ 31) (2 ^ 31 - 1)); lia|intros e He]. apply y_ret. cbv beta in *. constructor; lia.
  - eapply y_bind; [apply (y_int i64_min i64_max); now split|intros z Hz]. apply y_ret. constructor.
    cbv beta in Hz. unfold i64_min, i64_max, fits64 in *. lia.
  - apply y_seq; intros s. apply y_ret. constructor.
  - do 2 (apply y_seq; intros _). eapply y_bind; [exact IH|intros h Hh]. do 3 (apply y_seq; intros _).
    eapply y_bind; [exact IH|intros t Ht]. do 2 (apply y_seq; intros _). apply y_ret. now constructor.
  - do 2 (apply y_seq; intros _). eapply y_bind; [apply (y_commasep literal_fits); exact IH|intros e He].
    do 2 (apply y_seq; intros _). apply y_ret. now constructor.
Qed.

(** ** Trees *)
Definition fS (e : nodeS) : Prop := fits (fst e).
Ltac fin_ := apply fits_intro; cbn [children opt_list]; [discriminate|
  repeat first [apply fa_nil | apply fa_cons; [auto|] | apply fa_app | assumption ] ].

Section Grammar.
Context (o : oracle) (id : nat) (climb : nat -> P nodeS) (Hcomplete : forall k, yields nS (climb k))
        (Hclimb : forall k, yields fS (climb k)).

Lemma f_block f : yields fits_all (r_block id climb f).
Proof using Hclimb Hcomplete.
  unfold r_block. apply y_seq; intros s. do 2 (apply y_seq; intros _).
  eapply y_bind; [apply (y_sep (fun e => nS e /\ fS e)); intros i a i' E; split; [eapply Hcomplete|eapply Hclimb]; eauto|intros l Hl].
  do 2 (apply y_seq; intros _). apply y_seq; intros e. apply y_ret.
  eapply finished_fits; [|apply implicit_finished].
  - eapply Forall_impl; [|exact Hl]. now intros a [_ H].
  - apply ca_Forall. eapply Forall_impl; [|exact Hl]. now intros a [H _].
Qed.

Lemma f_if fuel : yields fits (r_if id climb fuel).
Proof using Hclimb Hcomplete.
  induction fuel as [|fuel IH]; cbn [r_if]; [intros i a i' E; discriminate|].
  do 3 (apply y_seq; intros _). eapply y_bind; [apply Hclimb|intros c Hc].
  apply y_seq; intros _. eapply y_bind; [apply f_block|intros t Ht].
  apply y_seq; intros _. eapply y_bind.
  - apply (y_opt fits_all). do 2 (apply y_seq; intros _). apply y_alt; [apply f_block|].
    apply y_seq; intros s. apply y_seq; intros _. eapply y_bind; [apply IH|intros x Hx].
    apply y_seq; intros _. apply y_seq; intros e. apply y_ret. apply fa_cons; auto. apply fa_nil.
  - intros e He. apply y_seq; intros _. apply y_ret. destruct e as [e|]; cbn in He; fin_.
Qed.

Lemma f_args : yields fits_all (args_ climb).
Proof using Hclimb Hcomplete.
  unfold args_. do 2 (apply y_seq; intros _). eapply y_bind; [apply (y_commasep fS); apply Hclimb|intros l Hl].
  do 2 (apply y_seq; intros _). apply y_ret. exact Hl.
Qed.

Lemma f_switch : yields fits (r_switch id climb).
Proof using Hclimb Hcomplete.
  unfold r_switch. do 3 (apply y_seq; intros _). eapply y_bind; [apply Hclimb|intros v Hv].
  do 3 (apply y_seq; intros _). eapply y_bind.
  - apply (y_sep (fun vc : list nodeS * list nodeS => fits_all (fst vc) /\ fits_all (snd vc))).
    unfold r_case. do 3 (apply y_seq; intros _).
    eapply y_bind; [apply (y_sep1 fS); apply Hclimb|intros l Hl]. apply y_seq; intros _.
    eapply y_bind; [apply f_block|intros b Hb]. apply y_seq; intros _. apply y_ret. split; auto.
  - intros cs Hcs. apply y_seq; intros _. eapply y_bind.
    + apply (y_opt fits_all). unfold r_default. do 3 (apply y_seq; intros _).
      eapply y_bind; [apply f_block|intros b Hb]. apply y_seq; intros _. apply y_ret; auto.
    + intros d Hd. do 3 (apply y_seq; intros _). apply y_ret. apply fits_intro; cbn [children]; [discriminate|].
      apply fa_cons; auto. apply fa_app.
      * apply Forall_forall. intros e He. apply in_flat_map in He as ([x b] & H1 & H2).
        apply in_flat_map in H1 as (vc & H3 & H4). apply in_map_iff in H4 as (y & [= <- <-] & H4).
        rewrite Forall_forall in Hcs. apply Hcs in H3 as [H5 H6].
        unfold fits_all in H5, H6. rewrite Forall_forall in H5, H6.
        destruct H2 as [H2|H2]; cbn [fst snd] in H2; [subst e|]; auto.
      * destruct d as [d|]; cbn; [exact Hd|apply fa_nil].
Qed.

Lemma with_op_fits i f n : fits (fst n) -> fits (fst (with_op i f n)).
Proof using.
  intros H. destruct f; cbn; auto. fin_. cbn [fst]. apply fits_intro; cbn; [discriminate|apply fa_nil].
Qed.

Lemma f_atoms fuel : Forall (yields fits) (prefix_atoms o id climb fuel).
Proof using Hclimb Hcomplete.
  unfold prefix_atoms. apply Forall_app; split; [|apply Forall_app; split].
  - repeat constructor.
    + do 2 (apply y_seq; intros _). eapply y_bind; [apply (y_opt fS); apply Hclimb|intros e He].
      apply y_ret. apply fits_return. destruct e; auto.
    + do 2 (apply y_seq; intros _). apply y_seq; intros i. do 3 (apply y_seq; intros _).
      eapply y_bind; [apply Hclimb|intros n Hn]. apply y_ret. fin_.
    + do 2 (apply y_seq; intros _). apply y_seq; intros i. apply y_seq; intros _. apply y_seq; intros f.
      do 2 (apply y_seq; intros _). eapply y_bind; [apply Hclimb|intros n Hn]. apply y_ret. fin_.
      apply with_op_fits; auto.
    + do 2 (apply y_seq; intros _). apply y_seq; intros i. do 3 (apply y_seq; intros _).
      eapply y_bind; [apply Hclimb|intros n Hn]. apply y_ret. fin_.
    + apply y_seq; intros i. apply y_seq; intros _. apply y_seq; intros f.
      do 2 (apply y_seq; intros _). eapply y_bind; [apply Hclimb|intros n Hn]. apply y_ret. fin_.
      apply with_op_fits; auto.
    + do 2 (apply y_seq; intros _). apply y_seq; intros nm. do 3 (apply y_seq; intros _).
      apply y_seq; intros a. do 3 (apply y_seq; intros _). eapply y_bind; [apply f_block|intros b Hb].
      apply y_ret. destruct nm; fin_.
    + apply f_if.
    + apply f_switch.
    + do 2 (apply y_seq; intros _). eapply y_bind; [apply Hclimb|intros c Hc]. apply y_seq; intros _.
      eapply y_bind; [apply f_block|intros b Hb]. apply y_ret. fin_.
    + do 2 (apply y_seq; intros _). apply y_seq; intros v. do 3 (apply y_seq; intros _).
      eapply y_bind; [apply Hclimb|intros c Hc]. apply y_seq; intros _.
      eapply y_bind; [apply f_block|intros b Hb]. apply y_ret. fin_.
    + do 2 (apply y_seq; intros _). apply y_seq; intros v. do 3 (apply y_seq; intros _).
      eapply y_bind; [apply Hclimb|intros c Hc]. apply y_seq; intros _.
      eapply y_bind; [apply f_block|intros b Hb]. apply y_ret. fin_.
    + do 2 (apply y_seq; intros _). apply y_seq; intros nm. apply y_seq; intros _.
      eapply y_bind; [apply f_args|intros a Ha]. apply y_seq; intros v. apply y_seq; intros _.
      eapply y_bind; [apply f_block|intros b Hb]. apply y_ret. fin_.
    + do 2 (apply y_seq; intros _). apply y_seq; intros s. apply y_ret. fin_.
    + eapply y_bind; [apply (y_int (- 2 ^ 31) (2 ^ 31 - 1)); lia|intros s Hs]. do 3 (apply y_seq; intros _).
      eapply y_bind; [apply (y_int (- 2 ^ 31) (2 ^ 31 - 1)); lia|intros e He]. apply y_ret.
      cbv beta in *. apply fits_literal. constructor; lia.
  - apply Forall_forall. intros p Hp. apply in_map_iff in Hp as (x & <- & _).
    do 2 (apply y_seq; intros _). eapply y_bind; [apply Hclimb|intros n Hn]. apply y_ret. fin_.
  - repeat constructor.
    + eapply y_bind; [apply y_literal|intros l Hl]. apply y_ret. now apply fits_literal.
    + do 2 (apply y_seq; intros _). eapply y_bind; [apply (y_commasep fS); apply Hclimb|intros l Hl].
      do 2 (apply y_seq; intros _). apply y_ret. fin_.
    + do 2 (apply y_seq; intros _). eapply y_bind; [apply Hclimb|intros a Ha]. do 3 (apply y_seq; intros _).
      eapply y_bind; [apply Hclimb|intros b Hb]. do 2 (apply y_seq; intros _). apply y_ret. fin_.
    + do 2 (apply y_seq; intros _). eapply y_bind; [apply y_literal|intros l Hl]. do 3 (apply y_seq; intros _).
      eapply y_bind; [apply y_literal|intros r Hr]. do 2 (apply y_seq; intros _). apply y_ret. apply fits_literal. now constructor.
    + apply y_seq; intros _. apply y_seq; intros i. apply y_seq; intros _.
      eapply y_bind; [apply f_args|intros a Ha]. apply y_ret. fin_.
    + apply y_seq; intros i. apply y_ret. fin_.
    + do 2 (apply y_seq; intros _). eapply y_bind; [apply Hclimb|intros n Hn]. do 2 (apply y_seq; intros _).
      apply y_ret. exact Hn.
    + eapply y_bind; [apply f_block|intros b Hb]. apply y_ret. fin_.
Qed.

Lemma f_posts min lhs : fits (fst lhs) -> Forall (yields fits) (posts climb min lhs).
Proof using Hclimb Hcomplete.
  intros Hl. unfold posts. apply Forall_app; split.
  - apply Forall_forall. intros p Hp. apply in_map_iff in Hp as (x & <- & _).
    destruct (min <=? fst x); [|apply y_fail]. do 3 (apply y_seq; intros _).
    eapply y_bind; [apply Hclimb|intros n Hn]. apply y_ret. destruct (snd (snd x)); fin_.
  - repeat constructor.
    + apply y_seq; intros _. eapply y_bind; [apply f_args|intros a Ha]. apply y_ret. fin_.
    + do 3 (apply y_seq; intros _). eapply y_bind; [apply Hclimb|intros n Hn]. do 2 (apply y_seq; intros _).
      apply y_ret. fin_.
Qed.

Lemma f_post_loop n min start : forall lhs, fS lhs -> yields fS (post_loop id climb n min start lhs).
Proof using Hclimb Hcomplete.
  induction n as [|n IH]; intros lhs Hl i a i' E; cbn [post_loop] in E; [discriminate|].
  destruct (pfirst (posts climb min lhs) i) as [x j| |] eqn:Ep; try discriminate.
  - eapply IH; [|exact E]. unfold fS; cbn [fst].
    eapply (y_first fits); [apply f_posts; exact Hl|exact Ep].
  - injection E as <- <-; auto.
Qed.
End Grammar.

Lemma f_climb o id fuel : forall min, yields fS (climb o id fuel min).
Proof.
  induction fuel as [|fuel IH]; intros min i a i' E; cbn [climb] in E; [discriminate|].
  destruct (pfirst (prefix_atoms o id (climb o id fuel) fuel) i) as [x j| |] eqn:Ep; try discriminate.
  eapply f_post_loop; [apply y_climb|exact IH| |exact E]. unfold fS; cbn [fst].
  eapply (y_first fits); [apply f_atoms; [apply y_climb|exact IH]|exact Ep].
Qed.
Lemma f_code o id fuel : yields fits_all (r_code o id fuel).
Proof.
  unfold r_code. apply y_seq; intros _. apply y_seq; intros s.
  eapply y_bind; [apply (y_opt (Forall (fun e => nS e /\ fS e))); apply (y_sep (fun e => nS e /\ fS e));
    intros i a i' E; split; [eapply y_climb|eapply f_climb]; eauto|intros c Hc].
  apply y_seq; intros e. apply y_seq; intros _. apply y_ret.
  assert (H : Forall (fun e => nS e /\ fS e) (match c with Some c => c | None => [] end)) by (destruct c; auto).
  eapply finished_fits; [|apply implicit_finished].
  - eapply Forall_impl; [|exact H]. now intros a [_ K].
  - apply ca_Forall. eapply Forall_impl; [|exact H]. now intros a [K _].
Qed.
Lemma parse_fits_program o fuel text id ast i : parse_code o fuel text id = PMatch ast i -> program_fits ast.
Proof.
  unfold parse_code, whole. destruct (r_code o id fuel (0, text)) as [a j| |] eqn:E; try discriminate.
  destruct (snd j); [|discriminate]. intros [= <- <-]. apply program_iff. eapply f_code; eauto.
Qed.

(** ** Included files *)
Section Includes.
Context (read : rstring -> option rstring) (parse : rstring -> nat -> option (list nodeS)).
Context (Hparse : forall text id a, parse text id = Some a -> program_fits a).
Lemma resolve_fits fuel : forall ast s ast' s', fits_all ast ->
  resolve_includes read parse fuel ast s = IOk ast' s' -> fits_all ast'.
Proof using Hparse.
  induction fuel as [|k IH]; intros ast s ast' s' Ha; cbn [resolve_includes]; [discriminate|].
  revert s ast' s'. induction ast as [|[n sp] t IHt]; intros s ast' s' E.
  - injection E as <- <-. constructor.
  - inversion Ha as [|? ? Hn Ht]; subst. specialize (IHt Ht).
    destruct n.
    all: try (match type of E with match ?X with _ => _ end = _ => destruct X eqn:Et; try discriminate end;
              injection E as <- <-; apply fa_cons; [exact Hn|eapply IHt; exact Et]).
    destruct name as [name nsp]. destruct (i_mem name s); [discriminate|].
    destruct (read name) as [text|]; [|discriminate].
    destruct (parse text (length (i_sources s))) as [a1|] eqn:Ep; [|discriminate].
    cbv zeta in E.
    destruct (resolve_includes read parse k a1 _) as [a2 s2| |] eqn:E1; try discriminate.
    destruct (resolve_includes read parse k a2 _) as [a3 s3| |] eqn:E2; try discriminate.
    match type of E with match ?X with _ => _ end = _ => destruct X eqn:Et; try discriminate end.
    injection E as <- <-. apply fa_cons; [|eapply IHt; exact Et]. cbn [fst].
    apply fits_intro; [discriminate|]. cbn. eapply IH; [|exact E2]. eapply IH; [|exact E1].
    apply program_iff. eapply Hparse; eauto.
Qed.
Lemma includes_fit fuel name text ast s :
  parse_with_includes read parse fuel name text = IOk ast s -> program_fits ast.
Proof using Hparse.
  unfold parse_with_includes. destruct (parse text 0) as [a|] eqn:E; [|discriminate].
  intros H. apply program_iff. eapply resolve_fits; [|exact H]. apply program_iff. eauto.
Qed.
End Includes.
