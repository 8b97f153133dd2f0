(** An example for C68. *)
From Verif Require Import Base RleVec Pool Vecc Float NumText Bytecode Chunk Value Ast Arith VmOps Parse
  Builtins Compiler Vm Std Repl SpecHeld SpecHeldRepl ProofArithEx ExProg ProofVmEx ProofHeld3 ProofHeld4 ProofStdUse.

Definition held_list {D} (s : vm D) : list value :=
  v_stack s ++ v_blocks s ++ map snd (v_globals s) ++
  flat_map (fun u => match u with Closed v => [v] | Open _ => [] end) (v_heap s) ++
  flat_map (fun f => ck_consts (fr_chunk f)) (v_frame s :: v_frames s).
Lemma held_in {D} (s : vm D) v : holds s v -> In v (held_list s).
Proof.
  unfold held_list. intros H. rewrite !in_app_iff. destruct H as [v H|v H|k v H|v H|f v Hf H]; auto.
  - right. right. left. apply in_map_iff. now exists (k, v).
  - do 3 right. left. apply in_flat_map. exists (Closed v). cbn. auto.
  - do 4 right. apply in_flat_map. eauto.
Qed.
Definition in_memoryb (v : value) : bool :=
  match v with
  | VArray l _ _ => Z.of_nat (length l) <? 2 ^ 63
  | VString s => Z.of_N (slen s) <? 2 ^ 63
  | _ => true
  end%Z.
Lemma in_memoryb_ok v : in_memoryb v = true -> in_memory v.
Proof. destruct v; cbn [in_memoryb in_memory]; auto; lia. Qed.
Lemma all_in_memory {D} (s : vm D) : forallb in_memoryb (held_list s) = true -> forall v, holds s v -> in_memory v.
Proof. intros H v Hv. apply in_memoryb_ok. rewrite forallb_forall in H. apply H. now apply held_in. Qed.

(** Steps that check the premise. *)
Fixpoint watched {D} m (hst : host D) (k : nat) (s : vm D) : option (vm D) :=
  match k with
  | O => Some s
  | S k => if forallb in_memoryb (held_list s)
           then match step m hst s with SNext s' => watched m hst k s' | _ => None end else None
  end.
Lemma watched_session {D} m (hst : host D) k : forall s s', proper_session m hst s ->
  watched m hst k s = Some s' -> proper_session m hst s'.
Proof.
  induction k as [|k IH]; intros s s' Hs; cbn [watched]; [now intros [= <-]|].
  destruct (forallb _ _) eqn:E; [|discriminate]. destruct (step m hst s) as [s1|v s1|e sp s1|] eqn:Es; try discriminate.
  apply IH. eapply ps_step; eauto. now apply all_in_memory.
Qed.

Definition held_text : rstring := str
"let top = 9223372036854775807
let c = @color(""#ff8000"")
let pick = fn(k) { let n = top + 1 + k   @get([n, @mix(c, #0000ff80, @sqrt(4) / 4), 0:k, ""abc""], k) }
[pick(1), pick(0), -0x10]".
Definition held_ast : list nodeS := match parse_code no_oracle 100 held_text 0 with PMatch a _ => a | _ => [] end.
Definition held_vm : vm unit := set_count 0 0 (add_builtins_list (std Release no_oracle (fun _ _ => Ok false))
  (vm_new tt (script_of held_ast) small)).
Lemma held_parses : exists i, parse_code no_oracle 100 held_text 0 = PMatch held_ast i.
Proof. eexists. vm_compute. reflexivity. Qed.
Lemma held_compiles : compile Release held_ast = COk (script_of held_ast).
Proof. vm_compute. reflexivity. Qed.
Lemma held_start : proper_session Release plain_host held_vm.
Proof.
  apply ps_start. apply ps_builtins; [|apply std_proper]. apply ps_new.
  eapply compile_proper; [|exact held_compiles]. destruct held_parses as [i H]. eapply parse_fits_program; eauto.
Qed.
Definition held_mid : vm unit := match watched Release plain_host 20 held_vm with Some s => s | None => held_vm end.
Lemma held_mid_session : proper_session Release plain_host held_mid.
Proof.
  assert (H : watched Release plain_host 20 held_vm = Some held_mid).
  { unfold held_mid. assert (K : match watched Release plain_host 20 held_vm with Some _ => true | None => false end = true) by (vm_compute; reflexivity).
   destruct (watched Release plain_host 20 held_vm); [reflexivity|discriminate]. }
  exact (watched_session _ _ _ _ _ held_start H).
Qed.
Lemma is_fn_some (x : option value) : match x with Some (VFn _) => true | _ => false end = true ->
  exists f, x = Some (VFn f).
Proof. destruct x as [[| | | | | | | | | | |f]|]; try discriminate. eauto. Qed.
Lemma held_mid_values : length (v_frames held_mid) = 1 /\ holds held_mid (VInt (- 2 ^ 63)) /\
  (exists f, holds held_mid (VFn f)) /\ (forall v, holds held_mid v -> in_memory v).
Proof.
  split; [vm_compute; reflexivity|split; [|split]].
  - apply ho_stack. apply (nth_error_In _ 3). vm_compute. reflexivity.
  - destruct (is_fn_some (nth_error (v_stack held_mid) 1)) as [f Hf]; [vm_compute; reflexivity|].
    exists f. apply ho_stack. exact (nth_error_In _ 1 Hf).
  - apply all_in_memory. vm_compute. reflexivity.
Qed.
Lemma held_result : match run Release plain_host 500 held_vm with
  | RDone v _ => v = VArray [VColor 128 64 128 192; VInt (- 2 ^ 63); VInt (-16)] 48 1000
  | _ => False
  end.
Proof. vm_compute. reflexivity. Qed.

(** ** A session of lines *)
Fixpoint watch_all {D} m (hst : host D) (k : nat) (s : vm D) : bool :=
  match k with
  | O => false
  | S k => forallb in_memoryb (held_list s) && match step m hst s with SNext s' => watch_all m hst k s' | _ => true end
  end.
Lemma reach_first {D} m (hst : host D) s s' : reach m hst s s' -> s' = s \/ exists s1, step m hst s = SNext s1 /\ reach m hst s1 s'.
Proof.
  induction 1 as [|s1 s2 R IH E]; [now left|right]. destruct IH as [->|(s3 & E3 & R3)].
  - exists s2. split; [exact E|constructor].
  - exists s3. split; [exact E3|econstructor; eauto].
Qed.
Lemma watch_all_ok {D} m (hst : host D) k : forall s s', watch_all m hst k s = true -> reach m hst s s' ->
  forall v, holds s' v -> in_memory v.
Proof.
  induction k as [|k IH]; intros s s' H R; cbn [watch_all] in H; [discriminate|].
  apply andb_prop in H as [H1 H2]. destruct (reach_first _ _ _ _ R) as [->|(s1 & E & R1)]; [now apply all_in_memory|].
  rewrite E in H2. exact (IH _ _ H2 R1).
Qed.
Definition line_of (t : rstring) : option (list nodeS) := match parse_code no_oracle 100 t 0 with PMatch a _ => Some a | _ => None end.
Definition held_one : option (list nodeS) := line_of (str "let top = 9223372036854775807 let f = fn(k) { top + k }").
Definition held_two : option (list nodeS) := line_of (str "[f(1), #0000ff80]").
Definition held_lib := [std (D := unit) Release no_oracle (fun _ _ => Ok false)].
Definition held_repl : repl unit := repl_new tt small held_lib.
Definition held_repl1 : repl unit := snd (execute Release plain_host 100 held_repl held_one).
Definition running (r : repl unit) (line : option (list nodeS)) : vm unit :=
  match line with
  | Some ast => set_count 0 0 (fold_left (fun s l => add_builtins_list l s) (rp_builtins r)
      (update_script (as_script (snd (compile_stmnts Release ast (rp_compiler r)))) (rp_vm r)))
  | None => rp_vm r
  end.
Lemma running_in r line s : run_in Release r line s -> s = running r line.
Proof. intros (ast & u & c & -> & E & ->). unfold running. rewrite E. reflexivity. Qed.
Lemma line_of_fits t : line_fits (line_of t).
Proof. unfold line_of. destruct (parse_code _ _ _ _) eqn:E; try exact Logic.I. exact (parse_fits_program _ _ _ _ _ _ E). Qed.
Lemma watched_one : watch_all Release plain_host 100 (running held_repl held_one) = true. Proof. vm_compute. reflexivity. Qed.
Lemma watched_two : watch_all Release plain_host 100 (running held_repl1 held_two) = true. Proof. vm_compute. reflexivity. Qed.
Lemma held_memory1 s s' : run_in Release held_repl held_one s -> reach Release plain_host s s' -> forall v, holds s' v -> in_memory v.
Proof. intros H. rewrite (running_in _ _ _ H). apply watch_all_ok with (k := 100). exact watched_one. Qed.
Lemma held_memory2 s s' : run_in Release held_repl1 held_two s -> reach Release plain_host s s' -> forall v, holds s' v -> in_memory v.
Proof. intros H. rewrite (running_in _ _ _ H). apply watch_all_ok with (k := 100). exact watched_two. Qed.
Lemma held_repl1_proper : proper_repl Release plain_host 100 held_repl1.
Proof.
  refine (pr_line _ _ _ held_repl held_one (fst (execute Release plain_host 100 held_repl held_one)) _ _ (line_of_fits _) held_memory1 _).
  - apply pr_new. constructor; [apply std_proper|constructor].
  - unfold held_repl1. apply surjective_pairing.
Qed.
Lemma held_two_value : match fst (execute Release plain_host 100 held_repl1 held_two) with
  | ORun (RDone v _) => v = VArray [VInt (- 2 ^ 63); VColor 0 0 255 128] 32 1000 | _ => False end.
Proof. vm_compute. reflexivity. Qed.
