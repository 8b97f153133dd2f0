(** The code of every syntax tree has consistent stack heights (continued). *)
From Verif Require Import Base RleVec Pool Vecc Float NumText Bytecode Chunk Value Ast Arith VmOps
                          Compiler Vm Items CodeRel SpecParse SpecReady ProofHeight ProofHeight2.

Ltac Zify.zify_post_hook ::= Z.div_mod_to_equations.

Ltac ch := cbn [children opt_list]; repeat (rewrite ?in_app_iff; cbn [In]); auto 10.
Ltac inc := intros ?a ?Ha; ch.
(** Use an induction hypothesis about a child / a list of children. *)
Ltac useE IH Hc Ht I1 T1 :=
  match type of IH with
  | e_spec _ _ _ (fst ?a) _ =>
    destruct (IH (complete_child _ a Hc ltac:(ch)) (tm_child _ _ a Ht ltac:(ch))) as [I1 T1]
  end.
Ltac useL IH Hc Ht I1 T1 :=
  match type of IH with
  | l_spec _ _ _ ?l _ =>
    destruct (IH (completes_of _ l Hc ltac:(inc)) (tms_of _ _ l Ht ltac:(inc))) as [I1 T1]
  end.
Ltac scc := first [ eapply sc_child; [eassumption|ch|lia] | eapply scs_of; [eassumption|inc|lia] ].

Section Code.
Context (m : mode) (strict : bool).
Notation ftf := (tf strict).
Notation e_spec := (e_spec strict).
Notation l_spec := (l_spec strict).
Notation s_spec := (s_spec strict).
Notation t_spec := (t_spec strict).
Notation p_spec := (p_spec strict).
Notation b_spec := (b_spec strict).
Notation o_spec := (o_spec strict).
Notation c_spec := (c_spec strict).
Notation f_spec := (f_spec strict).
Notation items X := (Forall (iok strict X)).
Notation sc := (sc strict).
Notation tm := (tm strict).

Lemma one_item X i : iok strict X (It i) -> items X [It i].
Proof. intros; constructor; auto. Qed.

Lemma literal_no_fn : forall l g, ~ fn_in g (literal_to_value l : value).
Proof using.
  fix IH 1. intros l g H. destruct l; cbn [literal_to_value] in H; try (inversion H; fail).
  - unfold force_array, of_vecc in H. inversion H as [|x l0 s m0 Hin Hx| |]; subst. cbn in Hin.
    clear H. induction l as [|y t IHt]; [contradiction|].
    cbn [map In] in Hin. destruct Hin as [<-|Hin]; [exact (IH y g Hx)|exact (IHt Hin)].
  - inversion H as [| |a b Ha|a b Hb]; subst; [exact (IH l1 g Ha)|exact (IH l2 g Hb)].
Qed.

Lemma load_const X off v : nth_error (x_consts X) off = Some v -> (forall g, ~ fn_in g v) ->
  items X [It (ILoadConst (N.of_nat off))] /\
  forall h, ftf [It (ILoadConst (N.of_nat off))] (h, false) (ends (h + 1, false)).
Proof using.
  intros H1 H2. split; [apply one_item; cbn; exists v; rewrite Nat2N.id; auto|].
  intros h. apply op_tf; [exact I|cbn; lia|cbn; lia].
Qed.

Lemma get_tf X L x r h : resolves X L x r -> (strict = true -> cover L h /\ ordinary x) ->
  ftf [It (get_instr r)] (h, false) (ends (h + 1, false)).
Proof using.
  intros H Hs. destruct H; cbn [get_instr].
  - apply tf_plain; [exact I|cbn; lia| |cbn; lia]. intros E. rewrite Nat2N.id. destruct (Hs E). eauto.
  - apply op_tf; [exact I|cbn; lia|cbn; lia].
  - apply op_tf; [exact I|cbn; lia|cbn; lia].
Qed.
Lemma get_items X L x r : resolves X L x r -> items X [It (get_instr r)].
Proof using.
  intros H. destruct H; cbn [get_instr]; apply one_item; cbn; auto.
  rewrite Nat2N.id. apply nth_error_Some. congruence.
Qed.
Lemma set_tf X L x r h : resolves X L x r -> (strict = true -> cover L h /\ ordinary x) -> 1 <= h ->
  ftf [It (set_instr r)] (h, false) (ends (h, false)).
Proof using.
  intros H Hs Hh. destruct H; cbn [set_instr].
  - apply tf_plain; [exact I|cbn; lia| |cbn; lia]. intros E. rewrite Nat2N.id. destruct (Hs E). eauto.
  - apply op_tf; [exact I|cbn; lia|cbn; lia].
  - apply op_tf; [exact I|cbn; lia|cbn; lia].
Qed.
Lemma set_items X L x r : resolves X L x r -> items X [It (set_instr r)].
Proof using.
  intros H. destruct H; cbn [set_instr]; apply one_item; cbn; auto.
  rewrite Nat2N.id. apply nth_error_Some. congruence.
Qed.
Lemma len_nat {A} (l : list A) : N.to_nat (len l) = length l.
Proof using. unfold len. lia. Qed.

Lemma pop2 c h E : ftf c (h, false) E -> ftf (It (IPopMany 2) :: c) (h + 2, false) E.
Proof using.
  intros H. change (It (IPopMany 2) :: c) with ([It (IPopMany 2)] ++ c).
  eapply tf_app; [apply (op_tf _ _ _ h); [exact I|cbn; lia|cbn; lia]|exact H].
Qed.

(** A test: [j] goes on with [a], which then jumps over [b], or jumps to [b]. *)
Lemma tf_test j off a b h1 h2 y :
  (forall E : nat -> hst -> Prop, E 0 h2 -> E (N.to_nat off) h2 -> ftf [It j] h1 E) ->
  N.to_nat off = size (a ++ [It (IJumpForward (szN b))]) ->
  ftf a h2 (ends y) -> ftf b h2 (ends y) ->
  ftf (It j :: a ++ It (IJumpForward (szN b)) :: b) h1 (ends y).
Proof using.
  intros Hj Ho Ha Hb.
  replace (It j :: a ++ It (IJumpForward (szN b)) :: b)
    with (([It j] ++ (a ++ [It (IJumpForward (szN b))])) ++ b) by (cbn; rewrite <- app_assoc; reflexivity).
  set (E1 := fun (d : nat) (z : hst) => (d = 0 /\ z = h2) \/ (d = size b /\ z = y)).
  eapply (tf_seq strict _ _ _ _ E1); [|exact Hb|].
  - eapply (tf_seq strict _ _ _ h2 (fun d z => (d = 0 \/ d = N.to_nat off) /\ z = h2)).
    + apply Hj; auto.
    + eapply tf_app; [exact Ha|]. destruct y as [yh yb]. apply tf_one. unfold flow. split; [cbn; lia|].
      split; [intros _; exact I|]. change (item_instr _) with (IJumpForward (szN b)). cbv beta iota.
      right. exists (size b). split; [unfold szN; lia|right; auto].
    + intros d z [[->| ->] ->]; [left; auto|]. right. exists 0. split; [lia|left; auto].
  - intros d z [[-> ->]|[-> ->]]; [left; auto|right]. exists 0. split; [lia|split; auto].
Qed.

Lemma jump_false h off (E : nat -> hst -> Prop) : 1 <= h ->
  E 0 (h, false) -> E (N.to_nat off) (h, false) -> ftf [It (IJumpIfFalse off)] (h, false) E.
Proof using.
  intros Hh H1 H2. apply tf_one. unfold flow. split; [exact Hh|]. split; [intros _; exact I|].
  change (item_instr _) with (IJumpIfFalse off). cbv beta iota.
  split; right; [exists 0|exists (N.to_nat off)]; split; auto; lia.
Qed.
Lemma jump_neq h off (E : nat -> hst -> Prop) : 1 <= h ->
  E 0 (h, false) -> E (N.to_nat off) (h, false) -> ftf [It (IJumpIfNotEq off)] (h + 1, false) E.
Proof using.
  intros Hh H1 H2. apply tf_one. unfold flow. split; [cbn; lia|]. split; [intros _; exact I|].
  change (item_instr _) with (IJumpIfNotEq off). cbv beta iota. replace (h + 1 - 1) with h by lia.
  split; right; [exists 0|exists (N.to_nat off)]; split; auto; lia.
Qed.

(** [if]: the value none and the condition are on the stack at the jump. *)
Lemma tf_cond cc ct co h :
  ftf cc (h + 1, false) (ends (h + 2, false)) -> ftf ct (h, false) (ends (h + 1, false)) ->
  ftf co (h + 2, false) (ends (h + 1, false)) ->
  ftf (It ILoadNone :: cc
       ++ It (IJumpIfFalse (szN (It (IPopMany 2) :: ct ++ [It (IJumpForward (szN co))])))
       :: It (IPopMany 2) :: ct ++ It (IJumpForward (szN co)) :: co) (h, false) (ends (h + 1, false)).
Proof using.
  intros Hc Ht Ho.
  change (It ILoadNone :: ?x) with ([It ILoadNone] ++ x).
  eapply tf_app; [apply (op_tf _ _ _ (h + 1)); [exact I|cbn; lia|cbn; lia]|].
  eapply tf_app; [exact Hc|].
  eapply (tf_test _ (szN (It (IPopMany 2) :: ct ++ [It (IJumpForward (szN co))])) (It (IPopMany 2) :: ct) co _ (h + 2, false)).
  - intros E H1 H2. apply jump_false; auto; lia.
  - unfold szN. rewrite Nat2N.id. reflexivity.
  - apply pop2, Ht.
  - exact Ho.
Qed.
Lemma tf_case ce cb ct h :
  ftf ce (h + 2, false) (ends (h + 3, false)) -> ftf cb (h, false) (ends (h + 1, false)) ->
  ftf ct (h + 2, false) (ends (h + 1, false)) ->
  ftf (ce ++ It (IJumpIfNotEq (szN (It (IPopMany 2) :: cb ++ [It (IJumpForward (szN ct))])))
       :: It (IPopMany 2) :: cb ++ It (IJumpForward (szN ct)) :: ct) (h + 2, false) (ends (h + 1, false)).
Proof using.
  intros Hc Ht Ho. eapply tf_app; [exact Hc|].
  eapply (tf_test _ (szN (It (IPopMany 2) :: cb ++ [It (IJumpForward (szN ct))])) (It (IPopMany 2) :: cb) ct _ (h + 2, false)).
  - intros E H1 H2. replace (h + 3) with (h + 2 + 1) by lia. apply jump_neq; auto; lia.
  - unfold szN. rewrite Nat2N.id. reflexivity.
  - apply pop2, Ht.
  - exact Ho.
Qed.
Lemma tf_while cc cb h :
  ftf cc (h + 1, false) (ends (h + 2, false)) -> ftf cb (h, false) (ends (h + 1, false)) ->
  ftf (It ILoadNone :: cc
       ++ It (IJumpIfFalse (szN (It (IPopMany 2) :: cb ++ [It (IJumpBackward 0)])))
       :: It (IPopMany 2) :: cb
       ++ It (IJumpBackward (szN (cc ++ It (IJumpIfFalse 0) :: It (IPopMany 2) :: cb) + 3))
       :: [It IPop]) (h, false) (ends (h + 1, false)).
Proof using.
  intros Hc Hb.
  set (j := It (IJumpIfFalse (szN (It (IPopMany 2) :: cb ++ [It (IJumpBackward 0)])))).
  set (loop := cc ++ j :: It (IPopMany 2) :: cb).
  assert (Hl : szN (cc ++ It (IJumpIfFalse 0) :: It (IPopMany 2) :: cb) = szN loop).
  { unfold szN, loop. rewrite !size_app, !size_cons. reflexivity. }
  rewrite Hl.
  replace (It ILoadNone :: cc ++ j :: It (IPopMany 2) :: cb ++ It (IJumpBackward (szN loop + 3)) :: [It IPop])
    with ([It ILoadNone] ++ (loop ++ [It (IJumpBackward (szN loop + 3))]) ++ [It IPop])
    by (unfold loop; cbn; rewrite <- ?app_assoc; cbn; rewrite <- ?app_assoc; reflexivity).
  eapply tf_app; [apply (op_tf _ _ _ (h + 1)); [exact I|cbn; lia|cbn; lia]|].
  eapply (tf_app _ _ _ _ (h + 2, false)); [|apply (op_tf _ _ _ (h + 1)); [exact I|cbn; lia|cbn; lia]].
  apply (tf_loop strict loop _ (fun d z => (d = 0 /\ z = (h + 1, false)) \/ (d = 3 /\ z = (h + 2, false)))).
  - unfold loop. eapply tf_app; [exact Hc|]. change (j :: It (IPopMany 2) :: cb) with ([j] ++ (It (IPopMany 2) :: cb)).
    eapply (tf_seq strict _ _ _ (h + 2, false)
              (fun d z => (d = 0 \/ d = size (It (IPopMany 2) :: cb) + 3) /\ z = (h + 2, false))).
    + apply jump_false; [lia|auto|]. split; [|auto]. right. unfold szN. rewrite Nat2N.id, !size_cons, !size_app. cbn. lia.
    + apply pop2. eapply tf_weaken; [exact Hb|]. intros d z [-> ->]. auto.
    + intros d z [[->| ->] ->]; [left; auto|right]. exists 3. split; [lia|auto].
  - intros d z [[-> ->]|[-> ->]]; [auto|right]. exists 0. split; [lia|split; auto].
Qed.

Lemma tf_for ci pre cb new b1 b2 h k :
  ftf ci (h + 1, false) (ends (h + 2, false)) ->
  ftf pre (h + 4, false) (ends (k, false)) ->
  ftf cb (k, false) (ends (h + 2 + length new + 1, false)) ->
  ftf (for_code ci pre cb new b1 b2) (h, false) (ends (h + 1, false)).
Proof using.
  intros Hi Hp Hb. unfold for_code. set (body := pre ++ cb ++ exit_code (map snd new)).
  set (j := It (IIterNext (szN (body ++ [It (IJumpBackward 0)])))).
  set (loop := j :: body).
  assert (Hl : szN (It (IIterNext 0) :: body) = szN loop).
  { unfold szN, loop. rewrite !size_cons. reflexivity. }
  rewrite Hl.
  replace (It INewLoopCtx :: ci ++ It ILoadNone :: j :: body ++ It (IJumpBackward (szN loop + 3)) :: exit_code [b2; b1])
    with ([It INewLoopCtx] ++ ci ++ [It ILoadNone] ++ (loop ++ [It (IJumpBackward (szN loop + 3))]) ++ exit_code [b2; b1])
    by (unfold loop; cbn; rewrite <- ?app_assoc; cbn; rewrite <- ?app_assoc; reflexivity).
  eapply tf_app; [apply (op_tf _ _ _ (h + 1)); [exact I|cbn; lia|cbn; lia]|].
  eapply tf_app; [exact Hi|].
  eapply tf_app; [apply (op_tf _ _ _ (h + 3)); [exact I|cbn; lia|cbn; lia]|].
  eapply (tf_app _ _ _ _ (h + 3, false)).
  2:{ replace (h + 1) with (h + 3 - length [b2; b1]) by (cbn; lia). apply tf_exit. cbn; lia. }
  apply (tf_loop strict loop _ (fun d z => (d = 0 /\ z = (h + 3, false)) \/ (d = 3 /\ z = (h + 3, false)))).
  - change loop with ([j] ++ body).
    eapply (tf_seq strict _ _ _ (h + 4, false)
              (fun d z => (d = 0 /\ z = (h + 4, false)) \/ (d = size body + 3 /\ z = (h + 3, false)))).
    + apply tf_one. unfold flow. split; [cbn; lia|]. split; [intros _; exact I|].
      change (item_instr j) with (IIterNext (szN (body ++ [It (IJumpBackward 0)]))). cbv beta iota. split; right.
      * exists 0. split; [lia|left]. split; [auto|]. f_equal. lia.
      * exists (size body + 3). split; [unfold szN; rewrite Nat2N.id, size_app; cbn; lia|auto].
    + unfold body. eapply tf_app; [exact Hp|]. eapply tf_app; [exact Hb|].
      eapply tf_weaken; [apply tf_exit; rewrite map_length; lia|].
      intros d z [-> ->]. left. split; [auto|]. f_equal. rewrite map_length. lia.
    + intros d z [[-> ->]|[-> ->]]; [left; auto|right]. exists 3. split; [lia|auto].
  - intros d z [[-> ->]|[-> ->]]; [auto|right]. exists 0. split; [lia|split; auto].
Qed.
End Code.
