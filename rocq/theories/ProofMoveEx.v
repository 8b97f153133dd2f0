(** White space before a program: whole programs and an example (C106). *)
From Verif Require Import Base Float Ast Parse Pool Bytecode Chunk Value Compiler SpecPos SpecNames SpecProg SpecRename SpecMove ProofRename ProofArithEx ProofRenameEx.
From Verif Require Import Std Console Vm SpecRel ProofConsoleEx ProofRename2 ProofRename3 ProofRename4 ProofMove.
From Verif Require Import ExProg.

Lemma parse_after o fuel g text id id' : gap g -> text <> [] ->
  match parse_code o fuel text id, parse_code o fuel (g ++ text) id' with
  | PMatch ast i, PMatch ast' i' => ast' = rename_program (fun x => x) (after_text g id id') ast
  | PFail, PFail => True
  | PFuel, PFuel => True
  | _, _ => False
  end.
Proof.
  intros G T. rewrite (parse_before o fuel g text id id' G T). destruct (parse_code o fuel text id); try exact I. reflexivity.
Qed.
Lemma no_renaming : renaming (fun x => x). Proof. split; auto. Qed.
Lemma error_kept e : renamed_error (fun x => x) e = e. Proof. destruct e; reflexivity. Qed.
Lemma moved_kept mv f f' : renamed_closure (fun x => x) mv (fun x => x = x) f f' -> moved_closure mv f f'.
Proof. destruct 1; constructor; auto; intros h P; exact I. Qed.
Lemma program_after : forall m (hst : host world) feq fhash fuel g text id id' ast i,
  gap g -> text <> [] ->
  (forall f f' h h', moved_closure (after_text g id id') f f' -> moved_closure (after_text g id id') h h' -> feq f' h' = feq f h) ->
  (forall f h e, feq f h <> Err e) ->
  (forall f f', moved_closure (after_text g id id') f f' -> fhash f' = fhash f) -> (forall f e, fhash f <> Err e) ->
  parse_code (h_oracle hst) fuel text id = PMatch ast i ->
  exists ast' i', parse_code (h_oracle hst) fuel (g ++ text) id' = PMatch ast' i' /\
  match compile m ast, compile m ast' with
  | CErr e sp, CErr e' sp' => e' = e /\ sp' = after_text g id id' sp
  | CPanic, CPanic => True
  | COk sc, COk sc' => forall w o k,
      match run m hst k (vm_new_with w sc o [stdio m (h_oracle hst) feq fhash]), run m hst k (vm_new_with w sc' o [stdio m (h_oracle hst) feq fhash]) with
      | RDone v t, RDone v' t' => display (h_oracle hst) mfi v' = display (h_oracle hst) mfi v /\ v_data t' = v_data t
      | RErr e sp t, RErr e' sp' t' => e' = e /\ sp' = after_text g id id' sp /\ v_data t' = v_data t /\ trace_back t' = map (move_line (after_text g id id')) (trace_back t)
      | ROut t, ROut t' => v_data t' = v_data t
      | RPanic, _ => True
      | _, _ => False
      end
  | _, _ => False
  end.
Proof.
  intros m hst feq fhash fuel g text id id' ast i G T F1 F2 F3 F4 E.
  pose proof (parse_after (h_oracle hst) fuel g text id id' G T) as P. rewrite E in P.
  destruct (parse_code (h_oracle hst) fuel (g ++ text) id') as [ast' i'| |] eqn:E'; try contradiction. subst ast'. eexists _, i'. split; [reflexivity|].
  assert (mo : moving (after_text g id id')) by exact (slide_moving _ _ _).
  pose proof (compile_renamed _ no_renaming _ mo m ast) as C.
  destruct (compile m ast) as [sc|e sp|] eqn:EC.
  - destruct (program_renamed (fun x => x) (after_text g id id') m hst feq fhash ast sc no_renaming mo eq_refl (fun _ _ _ => eq_refl)
      (fun f f' h h' A B => F1 f f' h h' (moved_kept _ _ _ A) (moved_kept _ _ _ B)) F2 (fun f f' A => F3 f f' (moved_kept _ _ _ A)) F4 EC (fun _ _ => eq_refl)) as (sc' & EC' & R).
    rewrite EC'. intros w o k. specialize (R w o k). destruct (run m hst k (vm_new_with w sc o _)) as [v t|e sp t| |t].
    + destruct R as (v' & t' & -> & R). exact R.
    + destruct R as (t' & -> & R1 & R2). rewrite error_kept. auto.
    + exact I.
    + destruct R as (t' & -> & R). exact R.
  - destruct (compile m (rename_program _ _ ast)); try contradiction. destruct C as [-> ->]. rewrite error_kept. auto.
  - destruct (compile m (rename_program _ _ ast)); try contradiction. exact I.
Qed.

(** An example *)
Definition opening : rstring := str "// what it says" ++ [10%N; 32%N; 10%N] ++ str "// and more;".
Lemma opening_gap : gap opening /\ N.to_nat (slen opening) = 30.
Proof.
  split; [|vm_compute; reflexivity]. unfold opening.
  refine (ga_comment (str " what it says") [10%N] ([32%N; 10%N] ++ str "// and more;") _ _ _); [repeat constructor; discriminate|constructor|].
  refine (ga_blank 32%N ([10%N] ++ str "// and more;") _ _); [now left|]. refine (ga_line [10%N] _ _ _); [constructor|].
  refine (ga_comment (str " and more") (str ";") [] _ _ _); [repeat constructor; discriminate|constructor|constructor].
Qed.
Definition failed_at (a : list nodeS) :=
  match run Release talk_host 500 (vm_new_with talk_world (script_of a) small [lib]) with
  | RErr e sp t => Some (e, (sp_start sp, sp_end sp))
  | _ => None
  end.
Lemma opening_moves : parse_code talk_oracle 100 (opening ++ say_text) 3 = PMatch (rename_program (fun x => x) (after_text opening 0 3) (ast_of say_text)) (124, []) /\
  ast_of (opening ++ say_text) = rename_program (fun x => x) (after_text opening 0 0) (ast_of say_text) /\ ast_of say_text <> [].
Proof. split; [vm_compute; reflexivity|]. split; [vm_compute; reflexivity|]. vm_compute. discriminate. Qed.
Lemma opening_fails : failed_at (ast_of say_text) = Some (ENotCallable (str "int"), (83, 93)) /\ failed_at (ast_of (opening ++ say_text)) = Some (ENotCallable (str "int"), (113, 123)) /\
  said_by (ast_of (opening ++ say_text)) = said_by (ast_of say_text).
Proof. vm_compute. auto. Qed.
Lemma no_end : ~ gap (str "// no end ") /\ ast_of (str "// no end " ++ str "1") <> rename_program (fun x => x) (after_text (str "// no end ") 0 0) (ast_of (str "1")).
Proof.
  split.
  - intros G. inversion G as [|c g B|e g L _ E|e g L|t e g Ht L _ E].
    + subst. cbn in B. intuition discriminate.
    + destruct L; discriminate.
    + assert (A : forall c, In c (t ++ e ++ g) -> (c <> 10 /\ c <> 13 /\ c <> 59)%N).
      { rewrite E. cbn. intros c Hc. repeat (destruct Hc as [<-|Hc]; [repeat split; discriminate|]). contradiction. }
      assert (B : forall c, In c e -> (c <> 10 /\ c <> 13 /\ c <> 59)%N) by (intros c Hc; apply A; rewrite !in_app_iff; auto).
      destruct L; destruct (B _ (or_introl eq_refl)) as (B1 & B2 & B3); first [exact (B1 eq_refl)|exact (B2 eq_refl)|exact (B3 eq_refl)].
  - vm_compute. discriminate.
Qed.
Lemma opening_hash : forall f e, no_fhash f <> Err e. Proof. intros f e H. discriminate H. Qed.
(** Functions compared by their code, with its positions *)
Definition by_code (f g : mfn) : res bool := Ok (function_eqb feqb false (mfn_function f) (mfn_function g)).
Lemma by_code_moved g a b f f' h h' : moved_closure (after_text g a b) f f' -> moved_closure (after_text g a b) h h' -> by_code f' h' = by_code f h.
Proof.
  intros F H. unfold by_code. f_equal.
  assert (E : forall x y, moved_closure (after_text g a b) x y -> renamed_fn (fun x => x) (after_text g a b) (mfn_function x) (mfn_function y)) by (destruct 1; assumption).
  exact (function_r _ no_renaming _ (slide_moving _ _ _) feqb false _ _ _ _ (E _ _ F) (E _ _ H)).
Qed.
Lemma by_code_answers f h e : by_code f h <> Err e. Proof. discriminate. Qed.
