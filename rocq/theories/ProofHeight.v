(** Stack heights of compiled code: every fragment the compiler emits takes a known stack
    height to a known stack height, whatever path is taken (proof device for C03). *)
From Verif Require Import Base RleVec Pool Vecc Float NumText Bytecode Chunk Value Ast Arith VmOps
                          Compiler Vm Items CodeRel SpecParse SpecReady.

Ltac Zify.zify_post_hook ::= Z.div_mod_to_equations.

(** Height over the frame's base, and whether a block result is held back. *)
Definition hst := (nat * bool)%type.

(** What an ordinary instruction leaves on the stack. *)
Definition results (i : instr) : nat :=
  match i with
  | ISwap => 2
  | IPop | IPopMany _ | IDefineGlobal _ | IDefineGlobalDefaulted _ | ICloseUpvalue | IExitContext => 0
  | IUnpack n | ILoadNoneMany n => N.to_nat n
  | _ => 1
  end.

(** The slot an instruction uses must lie below the top, when [strict]. *)
Definition slot_ok (strict : bool) (h : nat) (x : item) : Prop :=
  strict = true ->
  match x with
  | It (ILoadLocal i) | It (ISetLocal i) => N.to_nat i < h
  | ItClo _ caps => Forall (fun c => snd c = true -> N.to_nat (fst c) < h) caps
  | _ => True
  end.

Section Height.
Context (strict : bool).

(** [W] holds of the positions (in bytes) and states inside the fragment, [E d] of the
    states in which it is left [d] bytes behind its end. *)
Definition goes (W E : nat -> hst -> Prop) (n t : nat) (y : hst) : Prop :=
  W t y \/ exists d, t = n + d /\ E d y.

Definition flow (W E : nat -> hst -> Prop) (n t : nat) (x : item) (z : hst) : Prop :=
  let (h, b) := z in
  let go := goes W E n in
  operands (item_instr x) <= h /\ slot_ok strict h x /\
  match item_instr x with
  | IHalt => False
  | IReturn => b = false
  | IJumpForward off => go (t + N.to_nat off) z
  | IJumpBackward off => N.to_nat off <= t /\ go (t - N.to_nat off) z
  | IJumpIfFalse off => go t z /\ go (t + N.to_nat off) z
  | IJumpIfNotEq off => go t (h - 1, b) /\ go (t + N.to_nat off) (h - 1, b)
  | IIterNext off => go t (h + 1, b) /\ go (t + N.to_nat off) z
  | IBlockResult => b = false /\ go t (h - 1, true)
  | IBlockReturn => b = true /\ go t (h + 1, false)
  | ICallFunction n => b = false /\ go t (h - N.to_nat n, b)
  | i => go t (h - operands i + results i, b)
  end.

Definition ilen (x : item) : nat := length (item_bytes x).

Definition tf (c : list item) (x : hst) (E : nat -> hst -> Prop) : Prop :=
  exists W, goes W E (size c) 0 x /\
    forall p z, W p z -> exists pre i post, c = pre ++ i :: post /\ p = size pre /\
      flow W E (size c) (size pre + ilen i) i z.

Lemma flow_mono (W E W' E' : nat -> hst -> Prop) n t n' t' d x z :
  t' = t + d ->
  (forall q y, q + d = q + d -> goes W E n q y -> goes W' E' n' (q + d) y) ->
  flow W E n t x z -> flow W' E' n' t' x z.
Proof.
  intros -> Hg. unfold flow. destruct z as [h b]. intros (Ho & Hs & H). split; [auto|]. split; [auto|].
  assert (G : forall q y, goes W E n q y -> goes W' E' n' (q + d) y) by (intros; apply Hg; auto).
  destruct (item_instr x); auto;
    repeat match goal with
    | H : _ /\ _ |- _ => destruct H
    | |- _ /\ _ => split
    end; auto; try lia;
    match goal with
    | H : goes _ _ _ ?q _ |- goes _ _ _ ?q' _ => apply G in H; replace q' with (q + d) by lia; exact H
    end.
Qed.

(** One fragment after another.  The first is left at its end, or somewhere behind the
    second, or where the second begins. *)
Lemma tf_seq c1 c2 x y (E1 E2 : nat -> hst -> Prop) :
  tf c1 x E1 -> tf c2 y E2 ->
  (forall d z, E1 d z -> (d = 0 /\ z = y) \/ (exists d', d = size c2 + d' /\ E2 d' z)) ->
  tf (c1 ++ c2) x E2.
Proof.
  intros (W1 & S1 & F1) (W2 & S2 & F2) HE.
  set (W := fun p z => W1 p z \/ exists q, p = size c1 + q /\ W2 q z).
  assert (G2 : forall q z, goes W2 E2 (size c2) q z -> goes W E2 (size (c1 ++ c2)) (q + size c1) z).
  { intros q z [H|(d & -> & H)]; [left; right; exists q; split; [lia|auto]|].
    right. exists d. rewrite size_app. split; [lia|auto]. }
  assert (G1 : forall q z, goes W1 E1 (size c1) q z -> goes W E2 (size (c1 ++ c2)) (q + 0) z).
  { intros q z [H|(d & -> & H)]; [left; left; rewrite Nat.add_0_r; auto|].
    destruct (HE d z H) as [[-> ->]|(d' & -> & H')].
    - replace (size c1 + 0 + 0) with (0 + size c1) by lia. apply G2, S2.
    - right. exists d'. rewrite size_app. split; [lia|auto]. }
  exists W. split.
  - specialize (G1 _ _ S1). exact G1.
  - intros p z [H|(q & -> & H)].
    + destruct (F1 p z H) as (pre & i & post & -> & -> & Hf). exists pre, i, (post ++ c2).
      split; [rewrite <- app_assoc; reflexivity|]. split; [auto|].
      eapply (flow_mono W1 E1 W E2 _ _ _ _ 0); [| |exact Hf]; [lia|]. intros; apply G1; auto.
    + destruct (F2 q z H) as (pre & i & post & -> & -> & Hf). exists (c1 ++ pre), i, post.
      split; [rewrite <- app_assoc; reflexivity|]. split; [rewrite size_app; auto|].
      eapply (flow_mono W2 E2 W E2 _ _ _ _ (size c1)); [| |exact Hf]; [rewrite size_app; lia|]. intros; apply G2; auto.
Qed.

Definition ends (y : hst) : nat -> hst -> Prop := fun d z => d = 0 /\ z = y.
Definition nowhere : nat -> hst -> Prop := fun _ _ => False.

Lemma tf_weaken c x (E E' : nat -> hst -> Prop) : tf c x E -> (forall d z, E d z -> E' d z) -> tf c x E'.
Proof.
  intros (W & S & F) H. exists W. split.
  - destruct S as [S|(d & S1 & S2)]; [left; auto|right; eauto].
  - intros p z Hp. destruct (F p z Hp) as (pre & i & post & -> & -> & Hf). exists pre, i, post.
    split; [auto|]. split; [auto|]. eapply (flow_mono W E W E' _ _ _ _ 0); [| |exact Hf]; [lia|].
    intros q y _ [G|(d & -> & G)]; [left|right; exists d; split; [lia|auto]]. rewrite Nat.add_0_r; auto.
Qed.

Lemma tf_nil x : tf [] x (ends x).
Proof. exists (fun _ _ => False). split; [right; exists 0; split; [reflexivity|split; auto]|intros ? ? []]. Qed.

(** Plain sequencing. *)
Lemma tf_app c1 c2 x y E : tf c1 x (ends y) -> tf c2 y E -> tf (c1 ++ c2) x E.
Proof.
  intros H1 H2. eapply tf_seq; [exact H1|exact H2|]. intros d z [-> ->]. auto.
Qed.

(** One instruction. *)
Lemma tf_one i x (E : nat -> hst -> Prop) :
  flow (fun _ _ => False) E (ilen i) (ilen i) i x -> tf [i] x E.
Proof.
  intros H. exists (fun p z => p = 0 /\ z = x). split; [left; auto|].
  intros p z [-> ->]. exists [], i, []. split; [reflexivity|]. split; [reflexivity|].
  assert (Hs : size [i] = ilen i) by (rewrite size_cons, size_nil; unfold ilen; lia).
  rewrite Hs. eapply (flow_mono _ _ _ _ _ _ _ _ 0); [| |exact H].
  - rewrite size_nil. lia.
  - intros q y _ [[]|(d & -> & G)]. right. exists d. split; [lia|auto].
Qed.

(** A loop: the end of the fragment jumps back to its beginning. *)
Lemma tf_loop c x (E E' : nat -> hst -> Prop) :
  tf c x E -> (forall d z, E d z -> (d = 0 /\ z = x) \/ exists d', d = 3 + d' /\ E' d' z) ->
  tf (c ++ [It (IJumpBackward (szN c + 3))]) x E'.
Proof.
  intros (W & S & F) HE. set (j := It (IJumpBackward (szN c + 3))).
  set (W' := fun p z => W p z \/ (p = size c /\ z = x)).
  assert (Hs : size (c ++ [j]) = size c + 3) by (rewrite size_app, size_cons, size_nil; cbn; lia).
  assert (G : forall q z, goes W E (size c) q z -> goes W' E' (size (c ++ [j])) (q + 0) z).
  { rewrite Hs. intros q z [H|(d & -> & H)]; [left; left; rewrite Nat.add_0_r; auto|].
    destruct (HE d z H) as [[-> ->]|(d' & -> & H')].
    - left. right. split; [lia|auto].
    - right. exists d'. split; [lia|auto]. }
  exists W'. split; [specialize (G _ _ S); exact G|].
  intros p z [H|[-> ->]].
  - destruct (F p z H) as (pre & i & post & -> & -> & Hf). exists pre, i, (post ++ [j]).
    split; [rewrite <- app_assoc; reflexivity|]. split; [auto|].
    eapply (flow_mono W E W' E' _ _ _ _ 0); [| |exact Hf]; [lia|]. intros; apply G; auto.
  - exists c, j, []. split; [auto|]. split; [auto|].
    unfold flow. destruct x as [h b] eqn:Ex. split; [cbn; lia|]. split; [intros _; exact I|].
    change (item_instr j) with (IJumpBackward (szN c + 3)). cbv beta iota.
    assert (E1 : N.to_nat (szN c + 3) = size c + 3) by (unfold szN; lia).
    rewrite E1. change (ilen j) with 3. split; [lia|].
    replace (size c + 3 - (size c + 3)) with 0 by lia. specialize (G _ _ S). exact G.
Qed.

(** ** Rules for single instructions *)
Lemma tf_plain i h b y :
  match i with
  | IHalt | IReturn | IJumpForward _ | IJumpBackward _ | IJumpIfFalse _ | IJumpIfNotEq _ | IIterNext _
  | IBlockResult | IBlockReturn | ICallFunction _ => False
  | _ => True
  end ->
  operands i <= h -> slot_ok strict h (It i) -> y = h - operands i + results i ->
  tf [It i] (h, b) (ends (y, b)).
Proof.
  intros Hi Ho Hs ->. apply tf_one. unfold flow. split; [exact Ho|]. split; [exact Hs|].
  change (item_instr (It i)) with i.
  destruct i; try contradiction; (right; exists 0; split; [lia|split; auto]).
Qed.
Lemma tf_clo i caps h b : slot_ok strict h (ItClo i caps) -> tf [ItClo i caps] (h, b) (ends (h + 1, b)).
Proof.
  intros Hs. apply tf_one. unfold flow. split; [cbn; lia|]. split; [exact Hs|].
  change (item_instr (ItClo i caps)) with (ICreateClosure i). cbv beta iota.
  right; exists 0; split; [lia|split; auto]. cbn. f_equal. lia.
Qed.
Lemma tf_return h E : 1 <= h -> tf [It IReturn] (h, false) E.
Proof. intros H. apply tf_one. unfold flow. split; [exact H|]. split; [intros _; exact I|]. reflexivity. Qed.
Lemma tf_callf n h : S (N.to_nat n) <= h -> tf [It (ICallFunction n)] (h, false) (ends (h - N.to_nat n, false)).
Proof.
  intros H. apply tf_one. unfold flow. split; [exact H|]. split; [intros _; exact I|].
  change (item_instr _) with (ICallFunction n). cbv beta iota. split; [auto|]. right; exists 0; split; [lia|split; auto].
Qed.

Lemma slot_ok_not i h : (forall k, i <> ILoadLocal k) -> (forall k, i <> ISetLocal k) -> slot_ok strict h (It i).
Proof. intros H1 H2 _. destruct i; auto; exfalso; [eapply H1|eapply H2]; reflexivity. Qed.

(** ** Leaving a scope *)
Lemma tf_flush q h b : q <= h -> tf (flush q) (h, b) (ends (h - q, b)).
Proof.
  intros H. destruct q as [|[|q]].
  - replace (h - 0) with h by lia. apply tf_nil.
  - apply tf_plain; [exact I|exact H|apply slot_ok_not; discriminate|cbn; lia].
  - apply tf_plain; [exact I|cbn; lia|apply slot_ok_not; discriminate|cbn; lia].
Qed.
Lemma tf_pops fl : forall q h b, q + length fl <= h -> tf (pops fl q) (h, b) (ends (h - q - length fl, b)).
Proof.
  induction fl as [|[|] t IH]; intros q h b H; cbn [pops length] in *.
  - replace (h - q - 0) with (h - q) by lia. apply tf_flush. lia.
  - eapply tf_app; [apply tf_flush; lia|].
    change (It ICloseUpvalue :: pops t 0) with ([It ICloseUpvalue] ++ pops t 0).
    eapply tf_app; [apply (tf_plain _ _ _ (h - q - 1)); [exact I|cbn; lia|apply slot_ok_not; discriminate|cbn; lia]|].
    replace (h - q - S (length t)) with (h - q - 1 - 0 - length t) by lia. apply IH. lia.
  - replace (h - q - S (length t)) with (h - S q - length t) by lia. apply IH. lia.
Qed.
Lemma tf_exit fl h : 1 + length fl <= h -> tf (exit_code fl) (h, false) (ends (h - length fl, false)).
Proof.
  intros H. destruct fl as [|x t].
  - cbn. replace (h - 0) with h by lia. apply tf_nil.
  - unfold exit_code. set (fl := x :: t) in *.
    change (It IBlockResult :: pops fl 0 ++ [It IBlockReturn]) with ([It IBlockResult] ++ pops fl 0 ++ [It IBlockReturn]).
    eapply (tf_app _ _ _ (h - 1, true)).
    { apply tf_one. unfold flow. split; [cbn; lia|]. split; [intros _; exact I|].
      change (item_instr _) with IBlockResult. cbv beta iota. split; [auto|]. right; exists 0; split; [lia|split; auto]. }
    eapply (tf_app _ _ _ (h - 1 - 0 - length fl, true)); [apply tf_pops; lia|].
    apply tf_one. unfold flow. split; [cbn; lia|]. split; [intros _; exact I|].
    change (item_instr _) with IBlockReturn. cbv beta iota. split; [auto|]. right; exists 0; split; [lia|split; [auto|]].
    f_equal. lia.
Qed.
End Height.
