(** An example for C103. *)
From Verif Require Import Base Float Ast Parse Pool Bytecode Chunk Value Compiler SpecPos SpecNames SpecRename ProofRename ProofArithEx.
From Verif Require Import Std Console Vm SpecRel ProofConsoleEx.
From Verif Require Import ExProg.

(** Exchange the names "total" and "t". *)
Definition exchange (x : rstring) : rstring :=
  if seqb x (str "total") then str "t" else if seqb x (str "t") then str "total" else x.
Lemma seqb_spec x y : Bool.reflect (x = y) (seqb x y).
Proof. destruct (seqb x y) eqn:E; constructor; [now apply seqb_eq|]. intros H. apply seqb_eq in H. congruence. Qed.
Lemma exchange_twice x : exchange (exchange x) = x.
Proof.
  unfold exchange. destruct (seqb_spec x (str "total")) as [->|H]; [reflexivity|].
  destruct (seqb_spec x (str "t")) as [->|H']; [reflexivity|].
  destruct (seqb_spec x (str "total")); [contradiction|]. destruct (seqb_spec x (str "t")); [contradiction|]. reflexivity.
Qed.
Lemma exchange_renaming : renaming exchange.
Proof.
  split.
  - intros x y H. transitivity (exchange (exchange x)); [symmetry; apply exchange_twice|]. unfold rstring in *. rewrite H. apply exchange_twice.
  - intros x [->|[->|[n [ds [_ ->]]]]]; reflexivity.
Qed.

(** Everything moves by 19 characters. *)
Definition below (s : span) : span := if span_eqb s default_span then s else mkSpan (sp_start s + 19) (sp_end s + 19) (sp_src s).
Lemma span_eqb_spec x y : Bool.reflect (x = y) (span_eqb x y).
Proof. destruct (span_eqb x y) eqn:E; constructor; [now apply span_eqb_eq|]. intros H. apply span_eqb_eq in H. congruence. Qed.
Lemma below_moving : moving below.
Proof.
  split; [|reflexivity]. intros [a b c] [a' b' c']. unfold below. cbn [sp_start sp_end sp_src].
  destruct (span_eqb_spec (mkSpan a b c) default_span) as [E|E], (span_eqb_spec (mkSpan a' b' c') default_span) as [E'|E']; unfold default_span in *; intros H; injection H as H1 H2 H3; try injection E as E1 E2 E3; try injection E' as E4 E5 E6; f_equal; lia.
Qed.
Definition sum_text : rstring := str "let t = 0;let f = fn (total) { let g = fn (x) { t = t + x + total };g };for i in 0:5 { f(i)(1) };t".
Definition sum_text' : rstring := str "let total = 0;let f = fn (t) { let g = fn (x) { total = total + x + t };g };for i in 0:5 { f(i)(1) };total".
Definition ast_of (t : rstring) : list nodeS := match parse_code no_oracle 100 t 0 with PMatch a _ => a | _ => [] end.
(** The names without the positions, which differ in the second text. *)
Lemma sum_parsed : length (ast_of sum_text) = 4 /\ length (ast_of sum_text') = 4.
Proof. vm_compute. split; reflexivity. Qed.
Lemma sum_runs : result (ast_of sum_text) = Some (VInt 15) /\ result (rename_program exchange below (ast_of sum_text)) = Some (VInt 15) /\
  result (ast_of sum_text') = Some (VInt 15).
Proof. vm_compute. auto. Qed.
Definition table (a : list nodeS) : list rstring := p_entries (sc_globals (script_of a)).
Lemma sum_names : table (ast_of sum_text) = [str "t"; str "f"] /\
  table (rename_program exchange below (ast_of sum_text)) = [str "total"; str "f"] /\
  table (ast_of sum_text') = [str "total"; str "f"].
Proof. vm_compute. auto. Qed.

(** A replacement that makes two names one is no renaming, and does change programs. *)
Definition merge (x : rstring) : rstring := if seqb x (str "total") then str "t" else x.
Lemma merge_wrong : result (ast_of sum_text) = Some (VInt 15) /\ result (rename_program merge below (ast_of sum_text)) = Some (VInt 0).
Proof. vm_compute. auto. Qed.

(** Programs that print, one of which fails, with the names of variables exchanged. *)
Definition say_text : rstring := str "let t = [1, 2];fn show(total) { @println(show, total, t);total };show([t, 3]);show(show(1)(2))".
Definition lib : list (rstring * builtin world) := stdio Release talk_oracle no_feq no_fhash.
Definition said_by (a : list nodeS) :=
  match run Release talk_host 500 (vm_new_with talk_world (script_of a) small [lib]) with
  | RErr e sp t => Some (w_out (v_data t), e, length (trace_back t))
  | _ => None
  end.
Lemma say_runs : compile Release (ast_of say_text) = COk (script_of (ast_of say_text)) /\
  said_by (ast_of say_text) = Some (str "$ <closure show> [[1, 2], 3] [1, 2] " ++ 10%N :: str "<closure show> 1 [1, 2] " ++ [10%N], ENotCallable (str "int"), 1) /\
  said_by (rename_program exchange below (ast_of say_text)) = said_by (ast_of say_text).
Proof. vm_compute. auto. Qed.
Lemma lib_kept n b : In (n, b) (stdio Release (h_oracle talk_host) no_feq no_fhash) -> exchange n = n.
Proof.
  intros H. apply in_map with (f := fst) in H. cbn [fst] in H.
  assert (E : forallb (fun x => seqb (exchange x) x) (map fst (stdio Release (h_oracle talk_host) no_feq no_fhash)) = true) by (vm_compute; reflexivity).
  rewrite forallb_forall in E. apply E in H. now apply seqb_eq in H.
Qed.
(** All functions of a program, to the depth given. *)
Fixpoint all_parts (d : nat) (f : function) : bool :=
  match d with
  | O => false
  | S d => seqb (exchange (fn_name f)) (fn_name f) &&
      forallb (fun v => match v with VFn (MFun g) => all_parts d g | VFn _ => false | _ => true end) (ck_consts (fn_chunk f))
  end.
Lemma all_parts_kept d f g : all_parts d f = true -> SpecNames.part f g -> exists d', all_parts d' g = true.
Proof.
  intros H P. induction P as [|g h P IH I]; [now exists d|]. destruct IH as [[|d'] IH]; [discriminate|]. cbn [all_parts] in IH.
  apply andb_prop in IH as [_ IH]. rewrite forallb_forall in IH. exists d'. exact (IH _ I).
Qed.
Lemma say_kept g : SpecNames.part (sc_function (script_of (ast_of say_text))) g -> exchange (fn_name g) = fn_name g.
Proof.
  intros P. assert (H : all_parts 5 (sc_function (script_of (ast_of say_text))) = true) by (vm_compute; reflexivity).
  destruct (all_parts_kept _ _ _ H P) as [[|d] E]; [discriminate|]. cbn [all_parts] in E. apply andb_prop in E as [E _]. now apply seqb_eq in E.
Qed.

(** The name of a function is printed, so it has to be kept where functions are printed. *)
Definition named_text : rstring := str "fn t() { 1 };@print(t)".
Definition printed_by (a : list nodeS) : option rstring :=
  match run Release talk_host 500 (vm_new_with talk_world (script_of a) small [lib]) with
  | RDone _ t => Some (w_out (v_data t))
  | _ => None
  end.
Lemma named_shows : printed_by (ast_of named_text) = Some (str "$ <closure t> ") /\
  printed_by (rename_program exchange below (ast_of named_text)) = Some (str "$ <closure total> ").
Proof. vm_compute. auto. Qed.

(** A program that calls nothing of the host: the names of functions may change, too. *)
Definition wrong_text : rstring := str "fn t(a) { a };fn total(a) { t(a, 1) };total(2)".
Definition wrong_vm (a : list nodeS) : vm unit := vm_new_with tt (script_of a) small [].
Lemma wrong_paired : paired exchange below (fun _ => True) Release plain_host (wrong_vm (ast_of wrong_text)) (wrong_vm (rename_program exchange below (ast_of wrong_text))).
Proof.
  pose proof (compile_renamed exchange exchange_renaming below below_moving Release (ast_of wrong_text)) as C.
  assert (E1 : compile Release (ast_of wrong_text) = COk (script_of (ast_of wrong_text))) by (vm_compute; reflexivity).
  assert (E2 : compile Release (rename_program exchange below (ast_of wrong_text)) = COk (script_of (rename_program exchange below (ast_of wrong_text)))) by (vm_compute; reflexivity).
  rewrite E1, E2 in C. unfold wrong_vm.
  exact (pd_new exchange below (fun _ => True) Release plain_host tt (script_of (ast_of wrong_text)) (script_of (rename_program exchange below (ast_of wrong_text))) small [] C (fun _ _ => Logic.I) (fun l n b (H : In l []) => match H with end)).
Qed.
Definition told (s : vm unit) :=
  match run Release plain_host 500 s with
  | RErr e sp t => Some (e, (sp_start sp, sp_end sp), map (fun l => match l with TFrame x _ => x | TMore _ => [] end) (trace_back t))
  | _ => None
  end.
Lemma wrong_runs : told (wrong_vm (ast_of wrong_text)) = Some (EMismatchedArity (str "t") 1 2, (28, 35), [str "total"; str "@__main__"]) /\
  told (wrong_vm (rename_program exchange below (ast_of wrong_text))) = Some (EMismatchedArity (str "total") 1 2, (47, 54), [str "t"; str "@__main__"]).
Proof. vm_compute. auto. Qed.

(** Text put before a program moves it, and nothing else. *)
Definition before : rstring := str "// what it sums up" ++ [10%N].
Lemma before_moves : ast_of (before ++ sum_text) = rename_program (fun x => x) below (ast_of sum_text) /\ renaming (fun x => x).
Proof. split; [vm_compute; reflexivity|]. split; auto. Qed.

(** Functions are compared with their positions, so a move that makes two places one is no move. *)
Definition twins_text : rstring := str "let a = fn () { 1 };let b = fn () { 1 };a == b".
Definition one_place (s : span) : span := default_span.
Lemma one_place_wrong : result (ast_of twins_text) = Some (VBool false) /\ result (rename_program (fun x => x) below (ast_of twins_text)) = Some (VBool false) /\
  result (rename_program (fun x => x) one_place (ast_of twins_text)) = Some (VBool true).
Proof. vm_compute. auto. Qed.
