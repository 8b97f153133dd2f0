(** Cases of C100. *)
From Verif Require Import Base RleVec Pool Vecc Float NumText Bytecode Chunk Value Ast Arith VmOps Parse Compiler Vm Includes Report SpecIncludes Embed SpecEmbed
  ProofIncludes ProofEmbed ExProg.

Definition use_x : rstring := use_a ++ str " x + 1".
Definition nested_table : resolver unit := table_resolver q_parse fs_nested.
Definition three : list source := [mkSource (str "main") use_x; mkSource (str "a") (str "include " ++ ProofIncludes.quoted (str "b")); mkSource (str "b") (str "let x = 1;x")].
Lemma nested_available : available q_parse fs_nested (str "a").
Proof.
  assert (B : available q_parse fs_nested (str "b")).
  { eapply available_file; [reflexivity|intros id; vm_compute; discriminate|]. intros g H. apply nested_edges in H as [H _]. discriminate H. }
  eapply available_file; [reflexivity|intros id; vm_compute; discriminate|]. intros g H. apply nested_edges in H as [_ ->]. exact B.
Qed.
Definition nested_result : option (built unit script) := build_script q_parse nested_table Debug 5 (str "main") use_x tt.
Definition nested_run : option (list source * value) :=
  match nested_result with
  | Some (Built sc _ c) => match run Debug plain_host 100 (vm_new tt sc small) with RDone v _ => Some (c, v) | _ => None end
  | _ => None
  end.
Lemma nested_runs : nested_run = Some (three, VInt 2).
Proof. vm_compute. reflexivity. Qed.
Lemma nested_default : build_script q_parse (default_resolver fs_nested) Debug 5 (str "main") use_x [] =
  Some (Failed (ECircularInclude (str "b")) (mkSpan 8 11 1) [str "a"; str "b"] three).
Proof. vm_compute. reflexivity. Qed.
(** a file that includes itself *)
Lemma self_table k : build_script q_parse (table_resolver q_parse fs_self) Debug k (str "main") use_a tt = Some Deep.
Proof.
  unfold build_script, parse_files, cache_parse, add_source. cbn [app length].
  destruct (q_parse use_a 0) as [ast|] eqn:E; [|vm_compute in E; discriminate]. vm_compute in E. injection E as <-.
  assert (K : forall k nsp sp t c, resolve_all q_parse (table_resolver q_parse fs_self) k ((NInclude ([97%N], nsp) None, sp) :: t) tt c = Deep).
  { clear. induction k as [|k IH]; intros nsp sp t c; [reflexivity|]. rewrite table_include.
    change (fs_self [97%N]) with (Some (str "include " ++ ProofIncludes.quoted (str "a"))). cbv iota beta.
    assert (P : forall id, exists n1 s1 t1, q_parse (str "include " ++ ProofIncludes.quoted (str "a")) id = Some ((NInclude ([97%N], n1) None, s1) :: t1)).
    { intros id. eexists _, _, _. vm_compute. reflexivity. }
    destruct (P (length c)) as (n1 & s1 & t1 & ->). rewrite IH. reflexivity. }
  rewrite K. reflexivity.
Qed.
