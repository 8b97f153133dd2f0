(** More about functions and constructs treated before: what is refused and how, the clock, all
    the random choices, and what hashes tell apart, equality of callables (C12, C30, C48, C59, C72, C73, C74, C80). *)
From Verif Require Import Base RleVec Pool Float NumText Bytecode Chunk Value Ast Arith VmOps Args Builtins
  Parse Compiler Vm Std Console SpecArith SpecEq SpecConsole ProofArithEx ProofPosEx ProofConsole5 ProofTight ProofEq ExProg.

(** ** C12  The ends of a range are integers; the first that is not is named. *)
Theorem C12_refused : forall (Fn : Type) (fi : fn_info Fn) (a b : gvalue Fn),
  ((forall z, a <> VInt z) -> v_range fi a b = Err (EExpected (str "int") (ntype fi a))) /\
  (forall z, a = VInt z -> (forall z, b <> VInt z) -> v_range fi a b = Err (EExpected (str "int") (ntype fi b))).
Proof.
  intros Fn fi a b. split.
  - intros H. destruct a; try reflexivity. exfalso. eapply H. reflexivity.
  - intros z -> H. destruct b; try reflexivity. exfalso. eapply H. reflexivity.
Qed.
Print Assumptions C12_refused.

(** ** C48  Only lists and texts have a length. *)
Theorem C48_refused : forall (Fn : Type) m o (fi : fn_info Fn) feq amax (v : gvalue Fn),
  (forall l s mx, v <> VArray l s mx) -> (forall s, v <> VString s) ->
  std_call m o fi feq amax (str "len") [v] = Err (EBuiltin (str "type `" ++ ntype fi v ++ str "` has no length")).
Proof.
  intros Fn m o fi feq amax v H1 H2. destruct v; try reflexivity; exfalso; [eapply H2|eapply H1]; reflexivity.
Qed.
Print Assumptions C48_refused.

(** ** C59  @clamp refuses bounds in the wrong order and bounds that are not numbers. *)
Theorem C59_refused : forall (Fn : Type) m o (fi : fn_info Fn) feq amax a lo hi,
  (fltb hi lo = true -> std_call m o fi feq amax (str "clamp") [VFloat a; VFloat lo; VFloat hi] =
     Err (EBuiltin (str "min must be less than max"))) /\
  (lo = S754_nan \/ hi = S754_nan -> std_call m o fi feq amax (str "clamp") [VFloat a; VFloat lo; VFloat hi] =
     Err (EBuiltin (str "min and max must be numbers"))).
Proof.
  intros Fn m o fi feq amax a lo hi.
  change (std_call m o fi feq amax (str "clamp") [VFloat a; VFloat lo; VFloat hi]) with (@b_clamp Fn a lo hi).
  unfold b_clamp. split.
  - now intros ->.
  - intros [->| ->]; [now destruct hi|now destruct lo].
Qed.
Print Assumptions C59_refused.

(** ** C72  The clock: @now is the seconds since the epoch; both functions fail before it. *)
Theorem C72_now : forall o fhash w,
  snd (console_call o mfi fhash (str "now") [] w) =
    match w_clock w (w_reads w) with
    | Some (secs, nanos) => Ok (VFloat (fadd (f_of_Z (Z.of_N secs)) (fdiv (f_of_Z (Z.of_N nanos)) (f_of_Z 1000000000))))
    | None => Err (EBuiltin (str "failed to get time"))
    end /\
  (w_clock w (w_reads w) = None ->
   snd (console_call o mfi fhash (str "date") [] w) = Err (EBuiltin (str "failed to get time"))) /\
  w_reads (fst (console_call o mfi fhash (str "now") [] w)) = S (w_reads w).
Proof.
  intros o fhash w. change (console_call o mfi fhash (str "now") [] w) with (@b_now mfn w).
  change (console_call o mfi fhash (str "date") [] w) with (@b_date mfn w). unfold b_now, b_date, read_clock. cbn [fst snd w_reads].
  split; [destruct (w_clock w (w_reads w)) as [[s n]|]; reflexivity|]. split; [now intros ->|reflexivity].
Qed.
Print Assumptions C72_now.

(** ** C73  @randbool gives a truth value and can give both; every rainbow colour can come out. *)
Theorem C73_randbool : forall o fhash w, exists b, snd (console_call o mfi fhash (str "randbool") [] w) = Ok (VBool b).
Proof. exact randbool_gives. Qed.
Print Assumptions C73_randbool.
Theorem C73_randbool_any : forall o fhash b w,
  exists w', w_out w' = w_out w /\ snd (console_call o mfi fhash (str "randbool") [] w') = Ok (VBool b).
Proof. exact randbool_any. Qed.
Print Assumptions C73_randbool_any.
Theorem C73_rainbow_any : forall o fhash m feq amax l size mx v w,
  std_call m o mfi feq amax (str "rainbow_colors") [] = Ok (VArray l size mx) -> In v l ->
  exists w', w_out w' = w_out w /\ snd (console_call o mfi fhash (str "random_rainbow_color") [] w') = Ok v.
Proof. exact rainbow_any. Qed.
Print Assumptions C73_rainbow_any.

(** ** C74  Different values of one kind can have different hashes: the hasher is given
    different bytes. *)
Theorem C74_distinct_partial : forall o fhash (a b : value) w, value_wf a -> value_wf b -> a <> b ->
  match a, b with
  | VBool _, VBool _ | VInt _, VInt _ | VFloat _, VFloat _ | VRange _ _, VRange _ _
  | VColor _ _ _ _, VColor _ _ _ _ | VString _, VString _ => True
  | _, _ => False
  end ->
  exists w', w_out w' = w_out w /\
    snd (console_call o mfi fhash (str "hash") [a] w') <> snd (console_call o mfi fhash (str "hash") [b] w').
Proof. exact hash_kinds. Qed.
Print Assumptions C74_distinct_partial.
(** The hash is made of the bytes of the value ([fed], SpecConsole.v) and of nothing else. *)
Theorem C74_bytes : forall o fhash (v : value) w, plainly_hashed v ->
  exists items, fed v items /\ snd (console_call o mfi fhash (str "hash") [v] w) = Ok (VInt (Z.of_N (w_hash w items mod 2 ^ 31))).
Proof. exact hash_bytes. Qed.
Print Assumptions C74_bytes.
Example C74_bytes_example : fed (Fn := mfn) (VPair (VBool true) (VInt (-2))) (map HByte [1; 254; 255; 255; 255; 255; 255; 255; 255]%N).
Proof.
  apply (fe_pair _ _ [HByte 1] (map HByte [254; 255; 255; 255; 255; 255; 255; 255]%N)); [apply fe_true; exists [1%N]|apply fe_int; eexists];
    (split; [reflexivity|]); (split; [reflexivity|]); (split; [repeat constructor|]); vm_compute; reflexivity.
Qed.
(** Values of different kinds may not: every integer has the hash of some range, whatever the
    hash function. *)
Theorem C74_distinct_refuted : forall o fhash i w, exists lo hi, value_wf (VRange (Fn := mfn) lo hi) /\
  snd (console_call o mfi fhash (str "hash") [VInt i] w) = snd (console_call o mfi fhash (str "hash") [VRange lo hi] w).
Proof. exact hash_collides. Qed.
Print Assumptions C74_distinct_refuted.

(** ** C80  What cannot be converted is named; @float says "int". *)
Theorem C80_refused : forall m o (Fn : Type) (fi : fn_info Fn) feq amax (v : gvalue Fn),
  (forall i, v <> VInt i) -> (forall f, v <> VFloat f) -> (forall s, v <> VString s) ->
  std_call m o fi feq amax (str "int") [v] = Err (ECannotConvert (ntype fi v) (str "int")) /\
  std_call m o fi feq amax (str "float") [v] = Err (ECannotConvert (ntype fi v) (str "int")) /\
  ((forall b, v <> VBool b) -> std_call m o fi feq amax (str "bool") [v] = Err (ECannotConvert (ntype fi v) (str "bool"))).
Proof.
  intros m o Fn fi feq amax v H1 H2 H3. destruct v; try (split; [reflexivity|split; [reflexivity|intros H; reflexivity || (exfalso; eapply H; reflexivity)]]).
  - exfalso. eapply H1. reflexivity.
  - exfalso. eapply H2. reflexivity.
  - exfalso. eapply H3. reflexivity.
Qed.
Print Assumptions C80_refused.

Example refused_examples : forall o,
  v_range mfi (VInt 1) (VString []) = Err (EExpected (str "int") (str "str")) /\
  std_call Release o mfi (fun _ _ => Panic) 9 (str "len") [VNone] = Err (EBuiltin (str "type `none` has no length")) /\
  std_call Release o mfi (fun _ _ => Panic) 9 (str "float") [VNone] = Err (ECannotConvert (str "none") (str "int")) /\
  fltb fzero (f_of_Z 1) = true /\ value_wf (VRange (Fn := mfn) 3 7) /\ value_wf (VRange (Fn := mfn) 3 8) /\
  (exists l size mx, std_call Release o mfi (fun _ _ => Panic) 1000 (str "rainbow_colors") [] = Ok (VArray l size mx)).
Proof.
  intros o. split; [reflexivity|]. split; [reflexivity|]. split; [reflexivity|]. split; [reflexivity|].
  split; [constructor; split; vm_compute; congruence|]. split; [constructor; split; vm_compute; congruence|].
  do 3 eexists. reflexivity.
Qed.

(** ** C30  Equality on the machine, callables included: symmetric and transitive; a value
    without NaN equals itself, or the comparison aborts. *)
Theorem C30_machine_partial : forall (stack : nat) (h : list upvalue),
  let equal := v_equal (fn_eq stack h) in
  (forall a b, equal a b = equal b a) /\
  (forall a b c, equal a b = Ok (VBool true) -> equal b c = Ok (VBool true) -> equal a c = Ok (VBool true)) /\
  (captured_free h -> forall a, all_free a -> equal a a = Ok (VBool true) \/ equal a a = Panic).
Proof. exact equal_laws. Qed.
Print Assumptions C30_machine_partial.

(** Two closures are equal exactly when their functions are and each pair of captured variables
    is one live variable, or two ended ones with equal values. *)
Theorem C30_closures : forall (stack : nat) h f us g vs,
  fn_eq (S stack) h (MClo f us) (MClo g vs) = Ok true <->
  function_eqb feqb false f g = true /\
  Forall2 (fun u v =>
     (exists l, nth_error h u = Some (Open l) /\ nth_error h v = Some (Open l)) \/
     (exists x y, nth_error h u = Some (Closed x) /\ nth_error h v = Some (Closed y) /\
                  geqb (fn_eq stack h) x y = Ok true)) us vs.
Proof. exact closures_eq. Qed.
Print Assumptions C30_closures.

(** It does abort, however large the native stack: a closure that holds itself is compared
    with itself for ever. *)
Theorem C30_self_refuted : exists text ast sc i,
  parse_code no_oracle 100 text 0 = PMatch ast i /\ compile Release ast = COk sc /\
  forall stack : nat, exists fuel,
    run Release (mkHost (fun x => x) (fun x => x) (fun _ => 0%N) stack no_oracle) fuel (vm_new tt sc small) = RPanic.
Proof.
  destruct loopy_parses as [i Hi]. exists loopy, loopy_ast, (script_of loopy_ast), i.
  split; [exact Hi|]. split; [exact loopy_compiles|]. intros stack. exists (16 + 1). exact (loopy_crashes stack).
Qed.
Print Assumptions C30_self_refuted.

Example machine_equality_example :
  captured_free [Closed (VInt 3); Open 4] /\ all_free (VPair (VFn (MFun (fn_blank []))) (VArray [VFloat fzero] 1 1)) /\
  fn_eq 2 [Closed (VInt 3); Open 4; Closed (VInt 3)] (MClo (fn_blank []) [0; 1]) (MClo (fn_blank []) [2; 1]) = Ok true /\
  fn_eq 2 [Closed (VInt 3); Open 4; Closed (VInt 4)] (MClo (fn_blank []) [0; 1]) (MClo (fn_blank []) [2; 1]) = Ok false /\
  fn_eq 2 [Closed (VInt 3); Open 4; Closed (VInt 4)] (MClo (fn_blank []) [0; 1]) (MClo (fn_blank []) [0; 0]) = Ok false.
Proof.
  split. { intros v [[= <-]|[H|[]]]; [now apply af_literal|discriminate H]. }
  split. { apply af_pair; [apply af_fn; constructor; intros v []|]. apply af_array. constructor; [now apply af_literal|constructor]. }
  split; [reflexivity|]. split; reflexivity.
Qed.
