(** Positions do not change what a program means (C87). *)
From Verif Require Import Base RleVec Pool Vecc Float NumText Value Ast Arith VmOps Compiler Vm SpecParse
                          SpecReady SpecRel SpecVm SpecEval ProofCompiler ProofRel SpecLayout ProofLayout.

Section Like.
Context {D : Type} (m : mode) (orc : oracle) (opts : options) (on_call on_return : D -> D)
        (builtins : rstring -> option (sbuiltin (D:=D))).
Notation out := (out (D:=D)).
Notation sst := (sst (D:=D)).
Hypothesis HBl : blind builtins.

(** [b] says what [a] says; where [a] is left open [b] may be anything. *)
Definition lo {A B} (R : A -> B -> Prop) (a : out A) (b : out B) : Prop :=
  match a, b with
  | Got x s, Got y t => R x y /\ like_state s t
  | Returned v s, Returned w t => like v w /\ like_state s t
  | Failed e s, Failed e' t => e = e' /\ like_state s t
  | Unspecified, _ => True
  | More, More => True
  | _, _ => False
  end.
Lemma lo_seq {A B A' B'} (R : A -> A' -> Prop) (Q : B -> B' -> Prop) x x' (k : A -> sst -> out B) (k' : A' -> sst -> out B') :
  lo R x x' -> (forall a a' s s', R a a' -> like_state s s' -> lo Q (k a s) (k' a' s')) -> lo Q (seq x k) (seq x' k').
Proof. destruct x, x'; cbn; try contradiction; auto. intros [H1 H2] H. auto. Qed.
Lemma lo_got {A B} (R : A -> B -> Prop) a b s s' : R a b -> like_state s s' -> lo R (Got a s) (Got b s').
Proof. split; auto. Qed.
Lemma lo_lift {A B} (R : A -> B -> Prop) x y s s' : rr R x y -> like_state s s' -> lo R (lift x s) (lift y s').
Proof. destruct x, y; cbn; auto; contradiction. Qed.
Lemma lo_the {A B} (R : A -> B -> Prop) x y s s' : match x, y with Some a, Some b => R a b | None, None => True | _, _ => False end -> like_state s s' -> lo R (the_value x s) (the_value y s').
Proof. destruct x, y; cbn; auto; contradiction. Qed.

Lemma txt x y : same_text x y -> fi_type sfi x = fi_type sfi y /\ fi_text sfi x = fi_text sfi y.
Proof. intros (H & _). cbn. rewrite H. auto. Qed.
Lemma HF x y : same_text x y -> fi_type sfi x = fi_type sfi y.
Proof. reflexivity. Qed.
Lemma HE x y x' y' : same_text x y -> same_text x' y' -> rr eq (sfn_eq x x') (sfn_eq y y').
Proof. intros. exact Logic.I. Qed.
Fixpoint lit_like (l : literal) : like (lit_value l) (lit_value l).
Proof.
  destruct l as [| | | | | | |l|a b]; cbn [lit_value]; try (constructor; auto; fail).
  - unfold force_array. assert (HL : Forall2 like (map lit_value l) (map lit_value l)).
    { induction l as [|e l IH]; cbn [map]; constructor; [apply lit_like|exact IH]. }
    constructor. exact HL.
  - constructor; apply lit_like.
Defined.

(** Names and states. *)
Definition like_pair (x y : rstring * sval) : Prop := fst x = fst y /\ like (snd x) (snd y).
Lemma st_store s s' : like_state s s' -> Forall2 like (ss_store (D:=D) s) (ss_store s'). Proof. intros H; apply H. Qed.
Lemma st_len s s' : like_state s s' -> length (ss_store (D:=D) s) = length (ss_store s'). Proof. intros H. eapply f2_length, H. Qed.
Lemma put_store_like s s' l l' : like_state s s' -> Forall2 like l l' -> like_state (D:=D) (put_store l s) (put_store l' s').
Proof. intros (H1 & H2 & H3) H. split; auto. Qed.
Lemma put_globals_like s s' l l' : like_state s s' -> Forall2 like_pair l l' -> like_state (D:=D) (put_globals l s) (put_globals l' s').
Proof. intros (H1 & H2 & H3) H. split; [|split]; auto. Qed.
Lemma put_data_like s s' d : like_state s s' -> like_state (D:=D) (put_data d s) (put_data d s').
Proof. intros (H1 & H2 & H3). split; [|split]; auto. Qed.
Lemma bind_all_like l : forall l' r s s', Forall2 like_pair l l' -> like_state s s' ->
  fst (bind_all (D:=D) l r s) = fst (bind_all l' r s') /\ like_state (snd (bind_all l r s)) (snd (bind_all l' r s')).
Proof.
  induction l as [|[x v] l IH]; intros l' r s s' HL HS; inversion HL as [|? [y w] ? l1 [E1 E2] HL2]; subst; cbn [bind_all]; [auto|].
  cbn in E1. subst y. rewrite (st_len _ _ HS). apply IH; auto. apply put_store_like; auto. apply Forall2_app; [apply HS|]. constructor; auto.
Qed.
Lemma combine_like xs : forall vs ws, Forall2 like vs ws -> Forall2 like_pair (combine xs vs) (combine xs ws).
Proof. induction xs as [|x xs IH]; intros vs ws H; cbn [combine]; [constructor|]. destruct H; constructor; auto. split; auto. Qed.
Lemma rev_like {A} (R : A -> A -> Prop) l l' : Forall2 R l l' -> Forall2 R (rev l) (rev l').
Proof. induction 1; cbn; [constructor|]. apply Forall2_app; auto. Qed.
Lemma ainsert_like x v w g g' : like v w -> Forall2 like_pair g g' -> Forall2 like_pair (ainsert x v g) (ainsert x w g').
Proof. intros HV H. constructor; [split; auto|auto]. Qed.
Lemma alookup_like x g g' : Forall2 like_pair g g' ->
  match alookup seqb x g, alookup seqb x g' with Some v, Some w => like v w | None, None => True | _, _ => False end.
Proof. induction 1 as [|[y v] [z w] g g' [H1 H2] _ IH]; cbn in *; [auto|]. subst z. destruct (seqb _ _); auto. Qed.

Lemma global_like x s s' : like_state s s' ->
  match global (D:=D) x s, global x s' with Some v, Some w => like v w | None, None => True | _, _ => False end.
Proof. intros (H1 & H2 & H3). apply alookup_like. exact H2. Qed.
Lemma read_like x r s s' : like_state s s' -> lo like (read_var x r s) (read_var x r s').
Proof.
  intros HS. unfold read_var. destruct (alookup seqb x r).
  - apply lo_the; auto. apply (f2_nth like), HS.
  - pose proof (global_like x _ _ HS). destruct (global x s), (global x s'); cbn; auto.
Qed.
Lemma upd_like i v w l l' : like v w -> Forall2 like l l' -> Forall2 like (upd i v l) (upd i w l').
Proof. intros HV H. revert i. induction H; intros [|i]; cbn; constructor; auto. Qed.
Lemma write_like x v w r s s' : like v w -> like_state s s' -> lo like (write_var x v r s) (write_var x w r s').
Proof.
  intros HV HS. unfold write_var. destruct (alookup seqb x r).
  - split; auto. apply put_store_like; auto. apply upd_like; auto. apply HS.
  - pose proof (global_like x _ _ HS). destruct (global x s), (global x s'); try contradiction; cbn; auto.
    split; auto. apply put_globals_like; auto. apply ainsert_like; auto. apply HS.
Qed.
Lemma unpack_like n v w s s' : like v w -> like_state s s' -> lo (Forall2 like) (lift (v_unpack sfi n v) s) (lift (v_unpack sfi n w) s').
Proof. intros HV HS. apply lo_lift; auto. eapply unpack_rel; [exact HF|exact HV]. Qed.
Lemma bind_var_like x y v w r s s' : alike_var x y -> like v w -> like_state s s' -> lo eq (bind_var x v r s) (bind_var y w r s').
Proof.
  intros HX HV HS. destruct x as [x|xs], y as [y|ys]; cbn [alike_var] in HX; try contradiction; unfold bind_var.
  - rewrite HX. destruct (bind_all_like [(fst y, v)] [(fst y, w)] r s s') as [E1 E2]; auto. { constructor; [split; auto|constructor]. }
    destruct (bind_all [(fst y, v)] r s), (bind_all [(fst y, w)] r s'). split; auto.
  - rewrite HX, (names_len _ _ HX). eapply lo_seq; [apply unpack_like; auto|]. intros vs ws t t' HVS HT.
    destruct (bind_all_like (rev (combine (map fst ys) vs)) (rev (combine (map fst ys) ws)) r t t') as [E1 E2]; auto.
    { apply rev_like, combine_like, HVS. }
    destruct (bind_all (rev (combine (map fst ys) vs)) r t), (bind_all (rev (combine (map fst ys) ws)) r t'). split; auto.
Qed.
Lemma fold_like l l' : Forall2 like_pair l l' -> forall g g', Forall2 like_pair g g' ->
  Forall2 like_pair (fold_left (fun g xv => ainsert (fst xv) (snd xv) g) l g) (fold_left (fun g xv => ainsert (fst xv) (snd xv) g) l' g').
Proof. induction 1 as [|x y l l' [H1 H2] _ IH]; intros g g' HG; cbn [fold_left]; auto. apply IH. rewrite H1. apply ainsert_like; auto. Qed.
Lemma define_var_like x y v w s s' : alike_var x y -> like v w -> like_state s s' -> lo eq (define_var x v s) (define_var y w s').
Proof.
  intros HX HV HS. destruct x as [x|xs], y as [y|ys]; cbn [alike_var] in HX; try contradiction; unfold define_var.
  - rewrite HX. split; auto. apply put_globals_like; auto. apply ainsert_like; auto. apply HS.
  - rewrite HX, (names_len _ _ HX). eapply lo_seq; [apply unpack_like; auto|]. intros vs ws t t' HVS HT. split; auto.
    apply put_globals_like; auto. apply fold_like; [apply combine_like; auto|apply HT].
Qed.
Lemma sbfn_like f vs ws s s' : blind_fn f -> Forall2 like vs ws -> like_state s s' -> lo like (run_sbfn opts f vs s) (run_sbfn opts f ws s').
Proof.
  intros HB HV HS. unfold run_sbfn. replace (ss_data s') with (ss_data s) by apply HS.
  destruct (HB same_text (ss_data s) vs ws opts txt HV) as [E1 E2].
  destruct (f (ss_data s) vs opts) as [d x], (f (ss_data s) ws opts) as [d' x']. cbn [fst snd] in E1, E2. subst d'. apply lo_lift; [|apply put_data_like; auto].
  destruct x, x'; cbn; auto.
Qed.
Lemma exit_like (f : xfn D) s s' : like_state s s' -> lo eq (run_exit f s) (run_exit f s').
Proof.
  intros HS. unfold run_exit. replace (ss_data s') with (ss_data s) by apply HS. destruct (f (ss_data s)) as [d x]. apply lo_lift; [apply rr_refl|apply put_data_like; auto].
Qed.

(** ** Sequences of parts *)
Definition vr (x y : option sval * env) : Prop := match fst x, fst y with Some v, Some w => like v w | None, None => True | _, _ => False end /\ snd x = snd y.
Definition ok_f (f f' : node -> env -> sst -> out (option sval * env)) (n : node) : Prop :=
  forall n', alike n n' -> forall r s s', like_state s s' -> lo vr (f n r s) (f' n' r s').
Definition ok_x (f f' : node -> sst -> out sval) (n : node) : Prop :=
  forall n', alike n n' -> forall s s', like_state s s' -> lo like (f n s) (f' n' s').
Lemma list_like f f' l : Forall (fun e => ok_x f f' (fst e)) l -> forall l', Forall2 alike1 l l' -> forall s s', like_state s s' ->
  lo (Forall2 like) (list_with (D:=D) f l s) (list_with f' l' s').
Proof.
  induction 1 as [|e l HH HL IH]; intros l' HA s s' HS; inversion HA; subst; cbn [list_with]; [split; auto|].
  eapply lo_seq; [apply HH; eauto|]. intros v w t t' HV HT. eapply lo_seq; [apply IH; eauto|]. intros vs ws u u' HVS HU. split; auto.
Qed.
Lemma list_back_like f f' l : Forall (fun e => ok_x f f' (fst e)) l -> forall l', Forall2 alike1 l l' -> forall s s', like_state s s' ->
  lo (Forall2 like) (list_back_with (D:=D) f l s) (list_back_with f' l' s').
Proof.
  induction 1 as [|e l HH HL IH]; intros l' HA s s' HS; inversion HA; subst; cbn [list_back_with]; [split; auto|].
  eapply lo_seq; [apply IH; eauto|]. intros v w t t' HV HT. eapply lo_seq; [apply HH; eauto|]. intros vs ws u u' HVS HU. split; auto.
Qed.
Lemma stmts_like f f' l : Forall (fun e => ok_f f f' (fst e)) l -> forall l', Forall2 alike1 l l' -> forall r s s', like_state s s' ->
  lo vr (stmts_with (D:=D) f l r s) (stmts_with f' l' r s').
Proof.
  induction 1 as [|e l HH HL IH]; intros l' HA r s s' HS; inversion HA as [|? e' ? l1 HA1 HA2]; subst; cbn [stmts_with]; [split; [split; cbn; auto|auto]|].
  eapply lo_seq; [apply HH; eauto|]. intros v w t t' HV HT. destruct HV as [HV HR]. rewrite <- HR. specialize (IH _ HA2 (snd v) t t' HT). inversion HA2; subst.
  - split; auto. split; auto.
  - exact IH.
Qed.
Lemma block_like f f' l l' r s s' : Forall (fun e => ok_f f f' (fst e)) l -> Forall2 alike1 l l' -> like_state s s' ->
  lo like (block_with (D:=D) f l r s) (block_with f' l' r s').
Proof. intros H HA HS. eapply lo_seq; [apply stmts_like; eauto|]. intros v w t t' [HV _] HT. apply lo_the; auto. Qed.
Lemma else_like f f' o o' r s s' : match o with Some l => Forall (fun e => ok_f f f' (fst e)) l | None => True end -> alike_opt o o' -> like_state s s' ->
  lo like (else_with (D:=D) f o r s) (else_with f' o' r s').
Proof. destruct o, o'; cbn; try contradiction; intros; [apply block_like; auto|]. split; auto. constructor. Qed.
Lemma eqb_like v w v' w' s s' : like v w -> like v' w' -> like_state s s' -> lo eq (lift (D:=D) (geqb sfn_eq v v') s) (lift (geqb sfn_eq w w') s').
Proof. intros HV HW HS. apply lo_lift; auto. eapply (grel_eqb same_text); eauto using HE. Qed.
Lemma cases_like f f' v w d d' r cs : like v w -> match d with Some l => Forall (fun e => ok_f f f' (fst e)) l | None => True end -> alike_opt d d' ->
  Forall (fun c => ok_f f f' (fst (fst c)) /\ Forall (fun e => ok_f f f' (fst e)) (snd c)) cs -> forall cs', Forall2 alike_case cs cs' ->
  forall s s', like_state s s' -> lo like (cases_with (D:=D) f v d r cs s) (cases_with f' w d' r cs' s').
Proof.
  intros HV HD HDA. induction 1 as [|c cs [H1 H2] HL IH]; intros cs' HA s s' HS; inversion HA as [|? c' ? l1 [HA1 HA3] HA2]; subst; cbn [cases_with]; [apply else_like; auto|].
  eapply lo_seq; [apply H1; eauto|]. intros a b t t' [HAB _] HT. eapply lo_seq; [apply lo_the; eauto|]. intros x y u u' HX HU.
  eapply lo_seq; [apply eqb_like; eauto|]. intros ? [] p p' -> HP; [apply block_like; auto|apply IH; auto].
Qed.
Lemma truthy_like v w s s' : like v w -> like_state s s' -> lo eq (lift (D:=D) (is_truthy sfi v) s) (lift (is_truthy sfi w) s').
Proof. intros HV HS. apply lo_lift; auto. eapply (truthy_rel same_text); eauto using HF. Qed.
Lemma while_like cond cond' body body' : (forall s s', like_state s s' -> lo like (cond s) (cond' s')) -> (forall s s', like_state s s' -> lo like (body s) (body' s')) ->
  forall k v w s s', like v w -> like_state s s' -> lo like (while_ (D:=D) k cond body v s) (while_ k cond' body' w s').
Proof.
  intros HC HB. induction k as [|k IH]; intros v w s s' HV HS; cbn [while_]; [exact Logic.I|].
  eapply lo_seq; [apply HC; auto|]. intros a b t t' HAB HT. eapply lo_seq; [apply truthy_like; eauto|]. intros ? [] u u' -> HU; [|split; auto].
  eapply lo_seq; [apply HB; auto|]. intros. apply IH; auto.
Qed.
Lemma for_like it it' body body' : like it it' -> (forall v w s s', like v w -> like_state s s' -> lo like (body v s) (body' w s')) ->
  forall k i v w s s', like v w -> like_state s s' -> lo like (for_ (D:=D) m k it body i v s) (for_ m k it' body' i w s').
Proof.
  intros HI HB. induction k as [|k IH]; intros i v w s s' HV HS; cbn [for_]; [exact Logic.I|].
  eapply lo_seq; [apply lo_lift; [eapply (iter_rel same_text); eauto using HF|auto]|]. intros x y t t' HX HT.
  destruct x, y; cbn [orel] in HX; try contradiction; [|split; auto]. eapply lo_seq; [apply HB; auto|]. intros. apply IH; auto.
Qed.

(** ** Nodes *)
Section Nodes.
Context (call : sfn -> list sval -> sst -> out sval) (k : nat).
Hypothesis Hcall : forall c c' vs ws s s', same_text c c' -> Forall2 like vs ws -> like_state s s' -> lo like (call c vs s) (call c' ws s').
Notation ev := (SpecEval.ev m orc opts builtins call k).
Definition ok_n (n : node) : Prop := forall g, ok_f (ev g) (ev g) n.
Definition xpr (r : env) (n : node) (s : sst) : out sval := seq (ev false n r s) (fun vr s => the_value (fst vr) s).
Lemma x_ok n r : ok_n n -> ok_x (xpr r) (xpr r) n.
Proof. intros H n' HA s s' HS. eapply lo_seq; [apply H; eauto|]. intros a b t t' [HV _] HT. apply lo_the; auto. Qed.
Lemma l_ok (l : list nodeS) r : Forall (fun e => ok_n (fst e)) l -> Forall (fun e => ok_x (xpr r) (xpr r) (fst e)) l.
Proof. intros H. eapply Forall_impl; [|exact H]. intros e HH. apply x_ok, HH. Qed.
Lemma b_ok (l : list nodeS) g : Forall (fun e => ok_n (fst e)) l -> Forall (fun e => ok_f (ev g) (ev g) (fst e)) l.
Proof. intros H. eapply Forall_impl; [|exact H]. intros e HH. apply HH. Qed.
Lemma o_ok (o : option (list nodeS)) g : match o with Some l => Forall (fun e => ok_n (fst e)) l | None => True end ->
  match o with Some l => Forall (fun e => ok_f (ev g) (ev g) (fst e)) l | None => True end.
Proof. destruct o; auto. apply b_ok. Qed.
Lemma val_ok (x y : out sval) r : lo like x y -> lo vr (seq x (fun v s => Got (Some v, r) s)) (seq y (fun v s => Got (Some v, r) s)).
Proof. intros H. eapply lo_seq; [exact H|]. intros. split; auto. split; cbn; auto. Qed.
Lemma x_lo e e' r s s' : ok_n (fst e) -> alike1 e e' -> like_state s s' ->
  lo like (seq (ev false (fst e) r s) (fun vr s => the_value (fst vr) s)) (seq (ev false (fst e') r s') (fun vr s => the_value (fst vr) s)).
Proof. intros. apply (x_ok (fst e) r); auto. Qed.
Lemma list_lo l l' r s s' : Forall (fun e => ok_n (fst e)) l -> Forall2 alike1 l l' -> like_state s s' ->
  lo (Forall2 like) (list_with (fun n s => seq (ev false n r s) (fun vr s => the_value (fst vr) s)) l s)
    (list_with (fun n s => seq (ev false n r s) (fun vr s => the_value (fst vr) s)) l' s').
Proof. intros. apply list_like; auto. apply (l_ok l r); auto. Qed.
Lemma list_back_lo l l' r s s' : Forall (fun e => ok_n (fst e)) l -> Forall2 alike1 l l' -> like_state s s' ->
  lo (Forall2 like) (list_back_with (fun n s => seq (ev false n r s) (fun vr s => the_value (fst vr) s)) l s)
    (list_back_with (fun n s => seq (ev false n r s) (fun vr s => the_value (fst vr) s)) l' s').
Proof. intros. apply list_back_like; auto. apply (l_ok l r); auto. Qed.
Lemma block_lo l l' r s s' : Forall (fun e => ok_n (fst e)) l -> Forall2 alike1 l l' -> like_state s s' ->
  lo like (block_with (ev false) l r s) (block_with (ev false) l' r s').
Proof. intros. apply block_like; auto. apply b_ok; auto. Qed.
Lemma else_lo o o' r s s' : match o with Some l => Forall (fun e => ok_n (fst e)) l | None => True end -> alike_opt o o' -> like_state s s' ->
  lo like (else_with (ev false) o r s) (else_with (ev false) o' r s').
Proof. intros. apply else_like; auto. apply o_ok; auto. Qed.
Ltac xp := eapply lo_seq; [apply x_lo; eassumption|]; intros ? ? ? ? ? ?.
Ltac lp := eapply lo_seq; [first [apply list_lo; eassumption|apply list_back_lo; eassumption]|]; intros ? ? ? ? ? ?.
Lemma ev_like n : ok_n n.
Proof using HBl Hcall.
  induction n using node_ind'; intros gg n' HA r s s' HS; apply alike_inv in HA; inversion HA; subst; clear HA; cbn [SpecEval.ev]; try apply val_ok.
  - split; auto using lit_like.
  - lp. apply lo_lift; auto. apply (array_rel same_text); auto.
  - xp. xp. split; auto. constructor; auto.
  - xp. xp. apply lo_lift; auto. eapply (range_rel same_text); eauto using HF.
  - apply read_like; auto.
  - xp. destruct gg.
    + eapply lo_seq; [apply define_var_like; eassumption|]. intros. split; [split; cbn; auto|auto].
    + eapply lo_seq; [apply bind_var_like; eassumption|]. intros ? ? ? ? -> ?. split; [split; cbn; auto|auto].
  - destruct gg; [|exact Logic.I]. xp. cbn [fst]. split; [split; cbn; auto|].
    match goal with HT : like_state ?t ?t' |- _ => pose proof (global_like x0 _ _ HT) as HG; destruct (global x0 t), (global x0 t'); try contradiction; auto end.
    apply put_globals_like; auto. apply ainsert_like; auto. match goal with HT : like_state _ _ |- _ => apply HT end.
  - xp. apply write_like; auto.
  - assert (HFn : like (VFn (mkSfn x0 (map fst a) b r)) (VFn (mkSfn x0 (map fst a') b' r))).
    { constructor. split; [reflexivity|]. split; [assumption|]. split; [apply two_same_trees; assumption|reflexivity]. }
    cbn [fst]. destruct gg.
    + eapply lo_seq; [apply define_var_like; [|eassumption|eassumption]; reflexivity|]. intros. split; [split; cbn; auto|auto].
    + eapply lo_seq; [apply bind_var_like; [|eassumption|eassumption]; reflexivity|]. intros ? ? ? ? -> ?. split; [split; cbn; auto|auto].
  - split; auto. constructor. split; [reflexivity|]. split; [assumption|]. split; [apply two_same_trees; assumption|reflexivity].
  - apply block_lo; auto.
  - xp. eapply lo_seq; [apply truthy_like; eassumption|]. intros ? [] ? ? -> ?; [apply block_lo; auto|apply else_lo; auto].
  - xp. apply cases_like; auto; [apply o_ok; assumption|].
    match goal with H : Forall _ cs |- _ => eapply Forall_impl; [|exact H] end. intros c [K1 K2]. split; [apply K1|apply b_ok, K2].
  - xp. apply for_like; auto; [|constructor]. intros. eapply lo_seq; [apply bind_var_like; [|eassumption|eassumption]; reflexivity|]. intros ? ? ? ? -> ?. apply block_lo; auto.
  - xp. apply for_like; auto; [|constructor]. intros. eapply lo_seq; [apply bind_var_like; [|eassumption|eassumption]; assumption|]. intros ? ? ? ? -> ?. apply block_lo; auto.
  - apply while_like; auto; [| |constructor]; intros; [apply x_lo; auto|apply block_lo; auto].
  - xp. xp. destruct (binary_fn m orc sfi sfn_eq (o_string_max opts) (o_array_max opts) o) as [f|] eqn:EF; [|exact Logic.I].
    destruct (binary_rel same_text m orc sfi sfi sfn_eq sfn_eq (o_string_max opts) (o_array_max opts) HF HE o f EF) as (g & EG & HG).
    rewrite EF in EG. injection EG as <-. apply lo_lift; [apply HG; assumption|assumption].
  - xp. destruct (unary_fn m sfi o) as [f|] eqn:EF; [|exact Logic.I].
    destruct (unary_rel same_text m sfi sfi HF o f EF) as (g & EG & HG).
    rewrite EF in EG. injection EG as <-. apply lo_lift; [apply HG; assumption|assumption].
  - xp. lp. match goal with H : like ?c ?c' |- _ => destruct H as [| | | | | | | | | | |c1 c2 HT] end; try (split; [reflexivity|assumption]).
    match goal with H : Forall2 like ?vs ?ws |- _ => rewrite (f2_length _ _ _ H) end.
    pose proof HT as (E1 & E2 & _). rewrite E1, E2. destruct (_ =? _); [apply Hcall; auto|]. split; auto.
  - lp. cbn [fst]. pose proof (HBl x0) as HX. destruct (builtins x0) as [[f|f y]|]; [apply sbfn_like; auto|split; auto|split; auto].
  - lp. cbn [fst]. pose proof (HBl x0) as HX. destruct (builtins x0) as [[f|f y]|]; [exact Logic.I| |split; auto].
    eapply lo_seq; [apply sbfn_like; eassumption|]. intros w w' t t' HW HT.
    eapply (lo_seq eq); [destruct v, v'; try contradiction; [apply bind_var_like; eassumption|split; auto]|]. intros r1 ? u u' <- HU.
    match goal with HB : Forall2 alike1 b b' |- _ => pose proof (block_lo b b' r1 u u' H0 HB HU) as HBl1 end.
    destruct (block_with (ev false) b r1 u), (block_with (ev false) b' r1 u'); cbn [lo] in HBl1; try contradiction; try exact Logic.I; try assumption.
    destruct HBl1 as [HV HP]. eapply lo_seq; [apply exit_like; eassumption|]. intros. split; auto.
  - xp. xp. apply lo_lift; auto. eapply (index_rel same_text); eauto using HF.
  - destruct b as [b|], b' as [b'|]; cbn [alike_opt] in *; try contradiction; [|exact Logic.I]. destruct gg; [|exact Logic.I].
    eapply lo_seq; [apply stmts_like; [apply b_ok; eassumption|eassumption|assumption]|]. intros. split; [split; cbn; auto|auto].
  - destruct e as [e|], e' as [e'|]; try contradiction; [xp; split; auto|]. split; [constructor|auto].
Qed.
End Nodes.

Lemma call_like fuel : forall c c' vs ws s s', same_text c c' -> Forall2 like vs ws -> like_state s s' ->
  lo like (call_at m orc opts on_call on_return builtins fuel c vs s) (call_at m orc opts on_call on_return builtins fuel c' ws s').
Proof using HBl.
  induction fuel as [|k IH]; intros c c' vs ws s s' HC HV HS; cbn [call_at]; [exact Logic.I|].
  pose proof HC as (E1 & E2 & E3 & E4). rewrite <- E1, <- E2, <- E4. replace (ss_data s') with (ss_data s) by apply HS.
  set (l := combine (sf_name c :: sf_params c) (VFn c :: vs)). set (l' := combine (sf_name c :: sf_params c) (VFn c' :: ws)).
  assert (HL : Forall2 like_pair l l') by (apply combine_like; constructor; [constructor; exact HC|exact HV]).
  destruct (bind_all_like l l' (sf_env c) _ _ HL (put_data_like _ _ (on_call (ss_data s)) HS)) as [F1 F2].
  destruct (bind_all l _ _) as [r t], (bind_all l' _ _) as [r' t']. cbn [fst snd] in F1, F2. subst r'.
  assert (HB : lo vr (stmts_with (ev m orc opts builtins (call_at m orc opts on_call on_return builtins k) k false) (sf_body c) r t)
                     (stmts_with (ev m orc opts builtins (call_at m orc opts on_call on_return builtins k) k false) (sf_body c') r t')).
  { apply stmts_like; auto; [|apply same_trees_2; exact E3]. apply Forall_forall. intros e _. apply ev_like. exact IH. }
  destruct (stmts_with _ (sf_body c) r t), (stmts_with _ (sf_body c') r t'); cbn [lo] in HB; try contradiction; try exact Logic.I; try assumption.
  destruct HB as [HB1 HB2]. split; auto. replace (ss_data s1) with (ss_data s0) by apply HB2. apply put_data_like; auto.
Qed.
Lemma eval_like fuel p p' s s' : same_trees p p' -> like_state s s' ->
  lo like (eval m orc opts on_call on_return builtins fuel p s) (eval m orc opts on_call on_return builtins fuel p' s').
Proof using HBl.
  intros HP HS. unfold eval.
  assert (HB : lo vr (stmts_with (ev m orc opts builtins (call_at m orc opts on_call on_return builtins fuel) fuel true) p [] s)
                     (stmts_with (ev m orc opts builtins (call_at m orc opts on_call on_return builtins fuel) fuel true) p' [] s')).
  { apply stmts_like; auto; [|apply same_trees_2; exact HP]. apply Forall_forall. intros e _. apply ev_like. apply call_like. }
  destruct (stmts_with _ p [] s) as [[[v|] r] t|v t|e t| |], (stmts_with _ p' [] s') as [[[v'|] r'] t'|v' t'|e' t'| |]; cbn [lo] in HB; try contradiction; try exact Logic.I; try assumption.
  - destruct HB as [[HB1 _] HB2]. split; auto.
  - destruct HB as [[HB1 _] HB2]. contradiction.
  - destruct m; [exact Logic.I|]. exact HB.
Qed.
End Like.

(** Both directions. *)
Lemma like_sym v : forall w, like v w -> like w v.
Proof.
  induction v using gvalue_rect'; intros w HW; inversion HW; subst; try (constructor; auto; fail).
  - constructor. match goal with HL : Forall2 _ l ?l' |- _ => revert l' HL HW end. induction H as [|x t HX HT IH]; intros l' HL _; inversion HL; subst; constructor.
    + apply HX. assumption.
    + apply IH; auto. constructor. assumption.
  - constructor; [apply IHv1|apply IHv2]; assumption.
  - constructor. match goal with HT : same_text _ _ |- _ => destruct HT as (E1 & E2 & E3 & E4) end. repeat split; auto. unfold same_trees in *. auto.
Qed.
Lemma f2_sym {A} (R : A -> A -> Prop) l l' : (forall x y, R x y -> R y x) -> Forall2 R l l' -> Forall2 R l' l.
Proof. intros H. induction 1; constructor; auto. Qed.
Lemma state_sym {D} (s t : sst (D:=D)) : like_state s t -> like_state t s.
Proof.
  intros (H1 & H2 & H3). split; [|split]; auto.
  - eapply f2_sym; [|exact H1]. intros. apply like_sym; auto.
  - eapply f2_sym; [|exact H2]. intros x y [E1 E2]. split; auto. apply like_sym; auto.
Qed.
Theorem eval_alike {D} m orc opts on_call on_return (builtins : rstring -> option (sbuiltin (D:=D))) fuel p p' s s' :
  blind builtins -> same_trees p p' -> like_state s s' ->
  like_out like (eval m orc opts on_call on_return builtins fuel p s) (eval m orc opts on_call on_return builtins fuel p' s').
Proof.
  intros HB HP HS.
  pose proof (eval_like m orc opts on_call on_return builtins HB fuel p p' s s' HP HS) as H1.
  pose proof (eval_like m orc opts on_call on_return builtins HB fuel p' p s' s (eq_sym HP) (state_sym _ _ HS)) as H2.
  destruct (eval _ _ _ _ _ _ _ p s), (eval _ _ _ _ _ _ _ p' s'); cbn [lo like_out] in *; try contradiction; auto.
Qed.
