(** A program for the examples in PropCount.v. *)
From Verif Require Import Base RleVec Pool Vecc Float NumText Bytecode Chunk Value Ast Arith VmOps Parse Compiler Vm CodeSize
  SpecParse SpecReady SpecDisasm SpecPos SpecCount ProofParse ProofArithEx ProofPosEx ExProg.
From Verif Require ProofVm5.

Definition counting : rstring := str
"let add = fn(a, b, c) { a + b + c }
let x, y = [1, 2]
with @scaled(x, 3) as u, v { add(u, v, y) }
for p, q in [[1, 2], [3, 4]] { @print(p, q) }
add(x, y, 7)".
Notation counting_ast := (ast_of counting).
Fixpoint walk (n : nat) (sc : script) (p : nat) : list (nat * instr * span) :=
  match n with O => [] | S n =>
    match decode (ck_ops (fn_chunk (sc_function sc))) p with
    | Ok (i, next) => (p, i, chunk_get_span (fn_chunk (sc_function sc)) (next - 1)) :: walk n sc (next + trailer (fn_chunk (sc_function sc)) i)
    | _ => [] end end.
Lemma walk_at n sc : forall q p i sp, boundary (fn_chunk (sc_function sc)) q -> In (p, i, sp) (walk n sc q) ->
  boundary (fn_chunk (sc_function sc)) p /\ exists next, decode (ck_ops (fn_chunk (sc_function sc))) p = Ok (i, next).
Proof.
  induction n as [|n IH]; intros q p i sp B; cbn [walk]; [intros []|].
  destruct (decode _ q) as [[j next]| |] eqn:E; try (intros []; fail). intros [[= <- <- <-]|H]; [eauto|].
  refine (IH _ _ _ _ _ H). econstructor; eauto using ProofVm5.decode_in.
Qed.
Lemma counting_weight : weights counting_ast <= N.to_nat 65535.
Proof. apply Nat.leb_le. vm_compute. reflexivity. Qed.
Lemma counting_parses : exists i, parse_code no_oracle 100 counting 0 = PMatch counting_ast i.
Proof. eexists. vm_compute. reflexivity. Qed.
Lemma counting_complete : complete_program counting_ast.
Proof. destruct counting_parses as [i H]. exact (parse_code_complete _ _ _ _ _ _ H). Qed.
Lemma counting_compiles : compile Release counting_ast = COk (script_of counting_ast).
Proof. vm_compute. reflexivity. Qed.
Definition pick (p : nat) : option (nat * instr * span) :=
  find (fun x => fst (fst x) =? p) (walk 80 (script_of counting_ast) 0).
Lemma picked p i sp : pick p = Some (p, i, sp) -> boundary (fn_chunk (sc_function (script_of counting_ast))) p /\
  exists next, decode (ck_ops (fn_chunk (sc_function (script_of counting_ast)))) p = Ok (i, next).
Proof.
  unfold pick. intros H. destruct (find_some _ _ H) as [K _]. exact (walk_at 80 _ 0 p i sp (bd_start _) K).
Qed.
Definition first_fn (sc : script) : option function :=
  match nth_error (ck_consts (fn_chunk (sc_function sc))) 0 with Some (VFn (MFun g)) => Some g | _ => None end.
Lemma first_used sc i next g : decode (ck_ops (fn_chunk (sc_function sc))) 0 = Ok (i, next) -> creates i = Some 0%N ->
  first_fn sc = Some g -> used sc g.
Proof.
  unfold first_fn. intros D C H. destruct (nth_error _ 0) as [v|] eqn:E; [|discriminate].
  destruct v as [| | | | | | | | | | |c]; try discriminate. destruct c as [f|f u]; try discriminate. injection H as ->.
  exact (us_made _ _ 0 _ _ 0%N _ (us_main _) (bd_start _) D C E).
Qed.
Notation adder := (first_fn (script_of counting_ast)).
Lemma adder_facts : option_map (fun g => (fn_arity g, fn_name g)) adder = Some (3%N, str "@__lambda__").
Proof. vm_compute. reflexivity. Qed.
Lemma adder_made : decode (ck_ops (fn_chunk (sc_function (script_of counting_ast)))) 0 = Ok (ICreateFunction 0, 3).
Proof. vm_compute. reflexivity. Qed.
Lemma adder_used : exists g, adder = Some g /\ used (script_of counting_ast) g /\ fn_arity g = 3%N /\ fn_name g = str "@__lambda__".
Proof.
  pose proof adder_facts as F. destruct adder as [g|] eqn:E; [|discriminate]. cbn [option_map] in F. injection F as F1 F2.
  exists g. split; [reflexivity|]. split; [|split; assumption]. exact (first_used _ _ _ _ adder_made eq_refl E).
Qed.
