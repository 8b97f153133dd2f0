(** The code of every syntax tree has consistent stack heights. *)
From Verif Require Import Base RleVec Pool Vecc Float NumText Bytecode Chunk Value Ast Arith VmOps
                          Compiler Vm Items CodeRel SpecParse SpecReady ProofHeight.

Ltac Zify.zify_post_hook ::= Z.div_mod_to_equations.

Scheme code_expr_mi := Minimality for code_expr Sort Prop
  with code_list_mi := Minimality for code_list Sort Prop
  with code_stmt_mi := Minimality for code_stmt Sort Prop
  with code_stmts_mi := Minimality for code_stmts Sort Prop
  with code_pops_mi := Minimality for code_pops Sort Prop
  with code_block_mi := Minimality for code_block Sort Prop
  with code_else_mi := Minimality for code_else Sort Prop
  with code_cases_mi := Minimality for code_cases Sort Prop
  with code_fun_mi := Minimality for code_fun Sort Prop.
Combined Scheme code_mind from code_expr_mi, code_list_mi, code_stmt_mi, code_stmts_mi,
  code_pops_mi, code_block_mi, code_else_mi, code_cases_mi, code_fun_mi.

(** A function whose code is sound when it is entered with [h] values on its part of the
    stack. *)
Inductive fun_ok (strict : bool) : nat -> function -> Prop :=
| fo_fun h f bc :
    ck_ops (fn_chunk f) = bytes_of bc -> Forall item_fits bc ->
    tf strict bc (h, false) nowhere ->
    (forall off, In (It (ILoadConst off)) bc -> exists v,
       nth_error (ck_consts (fn_chunk f)) (N.to_nat off) = Some v /\ forall g, ~ fn_in g v) ->
    (forall off, In (It (ICreateFunction off)) bc -> exists g,
       nth_error (ck_consts (fn_chunk f)) (N.to_nat off) = Some (VFn (MFun g)) /\
       fn_upcount g = 0%N /\ fun_ok strict (S (N.to_nat (fn_arity g))) g) ->
    (forall off caps, In (ItClo off caps) bc -> exists g,
       nth_error (ck_consts (fn_chunk f)) (N.to_nat off) = Some (VFn (MFun g)) /\
       fn_upcount g = len caps /\ fun_ok strict (S (N.to_nat (fn_arity g))) g /\
       Forall (fun c => snd c = false -> N.to_nat (fst c) < N.to_nat (fn_upcount f)) caps) ->
    (forall k, In (It (ILoadUpvalue k)) bc \/ In (It (ISetUpvalue k)) bc ->
       N.to_nat k < N.to_nat (fn_upcount f)) ->
    fun_ok strict h f.

(** The same, for the items of a fragment. *)
Definition iok (strict : bool) (X : ctx) (x : item) : Prop :=
  match x with
  | It (ILoadConst off) => exists v, nth_error (x_consts X) (N.to_nat off) = Some v /\ forall g, ~ fn_in g v
  | It (ICreateFunction off) => exists g, nth_error (x_consts X) (N.to_nat off) = Some (VFn (MFun g)) /\
      fn_upcount g = 0%N /\ fun_ok strict (S (N.to_nat (fn_arity g))) g
  | ItClo off caps => exists g, nth_error (x_consts X) (N.to_nat off) = Some (VFn (MFun g)) /\
      fn_upcount g = len caps /\ fun_ok strict (S (N.to_nat (fn_arity g))) g /\
      Forall (fun c => snd c = false -> N.to_nat (fst c) < length (x_ups X)) caps
  | It (ILoadUpvalue k) | It (ISetUpvalue k) => N.to_nat k < length (x_ups X)
  | _ => True
  end.

Lemma fun_ok_intro strict h f bc U g o :
  ck_ops (fn_chunk f) = bytes_of bc -> Forall item_fits bc -> tf strict bc (h, false) nowhere ->
  Forall (iok strict (mkCtx g (ck_consts (fn_chunk f)) U o)) bc -> fn_upcount f = len U ->
  fun_ok strict h f.
Proof.
  intros H1 H2 H3 H4 H5. rewrite Forall_forall in H4.
  assert (Hl : N.to_nat (fn_upcount f) = length U) by (rewrite H5; unfold len; lia).
  econstructor; eauto; intros.
  - apply (H4 _ H). - apply (H4 _ H). - rewrite Hl. apply (H4 _ H).
  - rewrite Hl. destruct H as [H|H]; apply (H4 _ H).
Qed.

(** ** Parts of trees *)
Lemma inside_trans a b c : inside a b -> inside b c -> inside a c.
Proof. intros H1 H2. induction H2; eauto using inside. Qed.
Lemma child_inside (a : nodeS) n : In a (children n) -> inside (fst a) n.
Proof. intros H. destruct a as [c sp]. econstructor; [exact H|constructor]. Qed.
Lemma complete_child n (a : nodeS) : complete n -> In a (children n) -> complete (fst a).
Proof. intros H Ha d i b Hd. apply H. eapply inside_trans; eauto using child_inside. Qed.
Lemma tame_child n (a : nodeS) : tame n -> In a (children n) -> tame (fst a).
Proof. intros H Ha d Hd. apply H. eapply inside_trans; eauto using child_inside. Qed.
Lemma plain_child n (a : nodeS) : plain n -> In a (children n) -> plain (fst a).
Proof. intros H Ha d Hd. apply H. eapply inside_trans; eauto using child_inside. Qed.
Lemma complete_body n i b : complete n -> In (i, b) (bodies n) -> good_body i b.
Proof. intros H Hb. eapply H; eauto. constructor. Qed.

Definition completes (l : list nodeS) : Prop := forall a, In a l -> complete (fst a).
Lemma completes_of n l : complete n -> incl l (children n) -> completes l.
Proof. intros H Hi a Ha. eapply complete_child; eauto. Qed.

(** ** Slots *)
Lemma slot_lt L x i : slot_of L x = Some i -> i < length L.
Proof.
  induction L as [|y t IH]; cbn; [discriminate|]. destruct (seqb (fst y) x); [intros [= <-]; lia|].
  intros H. apply IH in H. lia.
Qed.

Section Code.
Context (m : mode) (strict : bool).
Notation ftf := (tf strict).

Definition cover (L : locals) (h : nat) : Prop :=
  forall x i, ordinary x -> slot_of L x = Some i -> i < h.
Definition tm (n : node) : Prop := strict = true -> tame n.
Definition sc (L : locals) (h : nat) (n : node) : Prop :=
  strict = true -> cover L h /\ (length L <= h \/ plain n).

Lemma cover_len L h : length L <= h -> cover L h.
Proof. intros H x i _ Hx. apply slot_lt in Hx. lia. Qed.
Lemma sc_len L h n : length L <= h -> sc L h n.
Proof. intros H _. split; [apply cover_len; auto|auto]. Qed.
Lemma tm_child n (a : nodeS) : tm n -> In a (children n) -> tm (fst a).
Proof. intros H Ha Hs. eapply tame_child; eauto. Qed.
Lemma sc_child L h h' n (a : nodeS) : sc L h n -> In a (children n) -> h <= h' -> sc L h' (fst a).
Proof.
  intros H Ha Hh Hs. destruct (H Hs) as [H1 H2]. split.
  - intros x i Hx Hi. specialize (H1 x i Hx Hi). lia.
  - destruct H2 as [H2|H2]; [left; lia|right; eapply plain_child; eauto].
Qed.
Definition tms (l : list nodeS) : Prop := forall a, In a l -> tm (fst a).
Definition scs (L : locals) (h : nat) (l : list nodeS) : Prop := forall a, In a l -> sc L h (fst a).
Lemma tms_of n l : tm n -> incl l (children n) -> tms l.
Proof. intros H Hi a Ha. eapply tm_child; eauto. Qed.
Lemma scs_of L h h' n l : sc L h n -> incl l (children n) -> h <= h' -> scs L h' l.
Proof. intros H Hi Hh a Ha. eapply sc_child; eauto. Qed.

Notation items X := (Forall (iok strict X)).

Definition e_spec (X : ctx) (L : locals) (n : node) (c : list item) : Prop :=
  complete n -> tm n ->
  items X c /\ forall h, sc L h n -> ftf c (h, false) (ends (h + 1, false)).
Definition l_spec (X : ctx) (L : locals) (es : list nodeS) (c : list item) : Prop :=
  completes es -> tms es ->
  items X c /\ forall h, scs L h es -> ftf c (h, false) (ends (h + length es, false)).
(** A statement leaves the new locals, or its value. *)
Definition s_spec (X : ctx) (g : bool) (L : locals) (p : bool) (n : node) (c : list item) (L' : locals) : Prop :=
  complete n -> tm n ->
  items X c /\ exists k, length L' = k + length L /\ (k = 0 -> L' = L) /\
  forall h, sc L h n ->
    (strict = true -> L' <> L -> length L <= h) /\
    (p = true \/ no_value n -> ftf c (h, false) (ends (h + k, false))) /\
    (p = false -> is_expression n = true -> k = 0 /\ ftf c (h, false) (ends (h + 1, false))) /\
    ((exists v, n = NReturn v) -> k = 0 /\ ftf c (h, false) nowhere).
Definition t_spec (X : ctx) (g : bool) (L : locals) (l : list nodeS) (c : list item) (L' : locals) : Prop :=
  completes l -> tms l ->
  items X c /\ exists k, length L' = k + length L /\
  forall h, scs L h l ->
    (good_body false l -> ftf c (h, false) (ends (h + k + 1, false))) /\
    (good_body true l -> ftf c (h, false) nowhere).
Definition p_spec (X : ctx) (L : locals) (l : list nodeS) (c : list item) : Prop :=
  completes l -> tms l ->
  items X c /\ forall h, scs L h l -> ftf c (h, false) (ends (h, false)).
Definition b_spec (X : ctx) (L : locals) (l : list nodeS) (c : list item) : Prop :=
  completes l -> tms l -> good_body false l ->
  items X c /\ forall h, scs L h l -> ftf c (h, false) (ends (h + 1, false)).
Definition o_spec (X : ctx) (L : locals) (o : option (list nodeS)) (c : list item) : Prop :=
  completes (opt_list (fun b => b) o) -> tms (opt_list (fun b => b) o) ->
  (forall b, o = Some b -> good_body false b) ->
  items X c /\ forall h, scs L h (opt_list (fun b => b) o) -> ftf c (h + 2, false) (ends (h + 1, false)).
Definition case_nodes (cs : list (nodeS * list nodeS)) (d : option (list nodeS)) : list nodeS :=
  flat_map (fun c => fst c :: snd c) cs ++ opt_list (fun b => b) d.
Definition c_spec (X : ctx) (L : locals) (cs : list (nodeS * list nodeS)) (d : option (list nodeS)) (c : list item) : Prop :=
  completes (case_nodes cs d) -> tms (case_nodes cs d) ->
  (forall e b, In (e, b) cs -> good_body false b) -> (forall b, d = Some b -> good_body false b) ->
  items X c /\ forall h, scs L h (case_nodes cs d) -> ftf c (h + 2, false) (ends (h + 1, false)).
Definition f_spec (X : ctx) (L : locals) (x : rstring) (args : list rstring) (body : list nodeS)
    (f : function) (caps : list (N * bool)) : Prop :=
  completes body -> tms body -> good_body true body ->
  fun_ok strict (S (N.to_nat (fn_arity f))) f /\ fn_upcount f = len caps /\
  Forall (fun c => snd c = false -> N.to_nat (fst c) < length (x_ups X)) caps /\
  Forall (fun c => snd c = true -> N.to_nat (fst c) < length L) caps.

Lemma cap_bounds {P : naming} X L caps U : Forall2 (cap_ok X L) caps U ->
  Forall (fun c => snd c = false -> N.to_nat (fst c) < length (x_ups X)) caps /\
  Forall (fun c => snd c = true -> N.to_nat (fst c) < length L) caps.
Proof.
  induction 1 as [|c x caps U Hc Hf [IH1 IH2]]; [split; constructor|].
  unfold cap_ok in Hc. destruct Hc as [_ Hc]. split; constructor; auto; intros Es; rewrite Es in Hc.
  - destruct Hc as (_ & _ & H). apply nth_error_Some. congruence.
  - destruct Hc as (H & _). apply slot_lt in H. exact H.
Qed.

Lemma op_tf i h y : 
  match i with
  | IHalt | IReturn | IJumpForward _ | IJumpBackward _ | IJumpIfFalse _ | IJumpIfNotEq _ | IIterNext _
  | IBlockResult | IBlockReturn | ICallFunction _ | ILoadLocal _ | ISetLocal _ => False
  | _ => True
  end -> operands i <= h -> y = h - operands i + results i -> ftf [It i] (h, false) (ends (y, false)).
Proof.
  intros Hi Ho ->. apply tf_plain; auto; [destruct i; auto|]. apply slot_ok_not; destruct i; try discriminate; contradiction.
Qed.

Lemma make_fun_tf X L x args body f caps off h :
  nth_error (x_consts X) off = Some (VFn (MFun f)) -> f_spec X L x args body f caps ->
  completes body -> tms body -> good_body true body ->
  (strict = true -> length L <= h) ->
  items X [make_fun off caps] /\ ftf [make_fun off caps] (h, false) (ends (h + 1, false)).
Proof.
  intros Hn Hf Hc Ht Hg Hl. destruct (Hf Hc Ht Hg) as (F1 & F2 & F3 & F4).
  unfold make_fun. destruct caps as [|c caps].
  - split; [|apply op_tf; [exact I|cbn; lia|cbn; lia]].
    constructor; [|constructor]. cbn. exists f. rewrite Nat2N.id. auto.
  - split.
    + constructor; [|constructor]. cbn. exists f. rewrite Nat2N.id. auto.
    + apply tf_clo. intros Hs. eapply Forall_impl; [|exact F4]. intros a Ha E. specialize (Ha E). specialize (Hl Hs). lia.
Qed.
End Code.
