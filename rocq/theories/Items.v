(** Code as a list of instructions: how the instructions of Vm.v are laid out as bytes,
    and that the machine reads back what was written (proof device; the layouts are
    those of compiler/src/lib.rs:59-113 and bytecode/src/bytecode.rs:26-92). *)
From Verif Require Import Base RleVec Pool Vecc Float NumText Bytecode Chunk Value Ast Arith VmOps
                          Compiler Vm.

Definition u16b (v : N) : bytes := [le_lo v; le_hi v].

(** lib.rs:59-113: the bytes of one instruction. *)
Definition enc (i : instr) : bytes :=
  match i with
  | IHalt => [op_Halt] | IReturn => [op_Return] | IPop => [op_Pop]
  | IPopMany n => op_PopMany :: u16b n
  | ISwap => [op_Swap] | ISwapPop => [op_SwapPop]
  | ILoadConst i => op_LoadConst :: u16b i
  | ILoadLocal i => op_LoadLocal :: u16b i
  | ISetLocal i => op_SetLocal :: u16b i
  | IDefineGlobal i => op_DefineGlobal :: u16b i
  | ILoadUpvalue i => op_LoadUpvalue :: u16b i
  | ISetUpvalue i => op_SetUpvalue :: u16b i
  | ILoadGlobal i => op_LoadGlobal :: u16b i
  | ISetGlobal i => op_SetGlobal :: u16b i
  | IDefineGlobalDefaulted i => op_DefineGlobalDefaulted :: u16b i
  | ICloseUpvalue => [op_CloseUpvalue]
  | ICreateFunction i => op_CreateFunction :: u16b i
  | ICreateClosure i => op_CreateClosure :: u16b i
  | ICreatePair => [op_CreatePair]
  | ICreateArray n => [op_CreateArray; n]
  | ICreateRange => [op_CreateRange]
  | ICallFunction n => [op_CallFunction; n]
  | ICallBuiltin b n => op_CallBuiltin :: u16b b ++ [n]
  | IEnterContext b n => op_EnterContext :: u16b b ++ [n]
  | IExitContext => [op_ExitContext]
  | IBlockResult => [op_BlockResult] | IBlockReturn => [op_BlockReturn]
  | IJumpIfFalse o => op_JumpIfFalse :: u16b o
  | IJumpIfNotEq o => op_JumpIfNotEq :: u16b o
  | IJumpForward o => op_JumpForward :: u16b o
  | IJumpBackward o => op_JumpBackward :: u16b o
  | IUnpack n => [op_Unpack; n]
  | ILoadNone => [op_LoadNone]
  | ILoadNoneMany n => [op_LoadNoneMany; n]
  | INewLoopCtx => [op_NewLoopCtx]
  | IIterNext o => op_IterNext :: u16b o
  | IIndexGet => [op_IndexGet]
  | IUnary o => match unary_opcode o with Some c => [c] | None => [] end
  | IBinary o => match binary_opcode o with Some c => [c] | None => [] end
  end.

(** Operands fit their width. *)
Definition fits (i : instr) : Prop :=
  match i with
  | IPopMany v | ILoadConst v | ILoadLocal v | ISetLocal v | IDefineGlobal v | ILoadUpvalue v
  | ISetUpvalue v | ILoadGlobal v | ISetGlobal v | IDefineGlobalDefaulted v
  | ICreateFunction v | ICreateClosure v | IJumpIfFalse v | IJumpIfNotEq v | IJumpForward v
  | IJumpBackward v | IIterNext v => (v < 65536)%N
  | ICreateArray n | ICallFunction n | IUnpack n | ILoadNoneMany n => (n < 256)%N
  | ICallBuiltin b n | IEnterContext b n => (b < 65536)%N /\ (n < 256)%N
  | IUnary o => unary_opcode o <> None
  | IBinary o => binary_opcode o <> None
  | _ => True
  end.

Ltac Zify.zify_post_hook ::= Z.div_mod_to_equations.

Lemma le_u16_back v : (v < 65536)%N -> le_u16 (le_lo v) (le_hi v) = v.
Proof.
  intros H. unfold le_u16, le_lo, le_hi.
  assert (v / 256 < 256)%N by (apply N.div_lt_upper_bound; lia).
  rewrite (N.mod_small (v / 256)) by auto. rewrite N.add_comm. symmetry. apply N.div_mod'.
Qed.

Lemma nth_app_r {A} (l l' : list A) k : nth_error (l ++ l') (length l + k) = nth_error l' k.
Proof. rewrite nth_error_app2 by lia. f_equal. lia. Qed.
Lemma nth_app_0 {A} (l l' : list A) : nth_error (l ++ l') (length l) = nth_error l' 0.
Proof. rewrite nth_error_app2 by lia. f_equal. lia. Qed.

Lemma read_u16_back pre v post : (v < 65536)%N ->
  bc_read_u16 (pre ++ u16b v ++ post) (length pre) = Ok v.
Proof.
  intros H. unfold bc_read_u16. rewrite nth_app_0, nth_app_r. cbn [nth_error u16b app].
  rewrite le_u16_back by auto. reflexivity.
Qed.
Lemma read_u8_back pre v post : bc_read_u8 (pre ++ v :: post) (length pre) = Ok v.
Proof. unfold bc_read_u8. rewrite nth_app_0. reflexivity. Qed.

Lemma read_u16_at pre o v post : (v < 65536)%N ->
  bc_read_u16 (pre ++ o :: u16b v ++ post) (length pre + 1) = Ok v.
Proof.
  intros H. pose proof (read_u16_back (pre ++ [o]) v post H) as E.
  rewrite <- app_assoc, app_length in E. exact E.
Qed.

Lemma decode_enc pre i post : fits i ->
  decode (pre ++ enc i ++ post) (length pre) = Ok (i, length pre + length (enc i)).
Proof.
  assert (E0 : forall o x, bc_read_u8 (pre ++ (o :: x) ++ post) (length pre) = Ok o)
    by (intros; apply read_u8_back).
  assert (E1 : forall o n, bc_read_u8 (pre ++ [o; n] ++ post) (length pre + 1) = Ok n).
  { intros. unfold bc_read_u8. rewrite nth_app_r. reflexivity. }
  assert (E2 : forall o v x, (v < 65536)%N ->
             bc_read_u16 (pre ++ (o :: u16b v ++ x) ++ post) (length pre + 1) = Ok v).
  { intros o v x H. pose proof (read_u16_at pre o v (x ++ post) H) as E. cbn in E |- *. exact E. }
  assert (E2' : forall o v, (v < 65536)%N ->
             bc_read_u16 (pre ++ (o :: u16b v) ++ post) (length pre + 1) = Ok v).
  { intros o v H. apply (read_u16_at pre o v post H). }
  assert (E3 : forall o v n,
             bc_read_u8 (pre ++ (o :: u16b v ++ [n]) ++ post) (length pre + 3) = Ok n).
  { intros. unfold bc_read_u8. rewrite nth_app_r. reflexivity. }
  intros H.
  destruct i; cbn [enc fits] in *; unfold decode; try (rewrite E0; cbn [rbind]);
    try (match goal with |- context [alookup N.eqb ?o ?l] =>
           let r := eval vm_compute in (alookup N.eqb o l) in
           change (alookup N.eqb o l) with r end; cbn match);
    try reflexivity;
    try (match goal with |- context [alookup N.eqb ?o u16_ops] =>
           let r := eval vm_compute in (alookup N.eqb o u16_ops) in
           change (alookup N.eqb o u16_ops) with r end; cbn match);
    try (rewrite E2' by auto; reflexivity);
    try (match goal with |- context [alookup N.eqb ?o u8_ops] =>
           let r := eval vm_compute in (alookup N.eqb o u8_ops) in
           change (alookup N.eqb o u8_ops) with r end; cbn match);
    try (rewrite E1; reflexivity);
    try (match goal with |- context [alookup N.eqb ?o u16u8_ops] =>
           let r := eval vm_compute in (alookup N.eqb o u16u8_ops) in
           change (alookup N.eqb o u16u8_ops) with r end; cbn match);
    try (destruct H; rewrite E2 by auto; cbn [rbind]; rewrite E3; reflexivity).
  - destruct o; cbn [unary_opcode] in H |- *; try congruence; rewrite E0; reflexivity.
  - destruct o; cbn [binary_opcode] in H |- *; try congruence; rewrite E0; reflexivity.
Qed.

(** An instruction with what follows it: only CreateClosure has something
    (lib.rs:353-359). *)
Inductive item := It (i : instr) | ItClo (i : N) (caps : list (N * bool)).
Definition cap_bytes (c : N * bool) : bytes := (if snd c then 1 else 0)%N :: u16b (fst c).
Definition item_bytes (x : item) : bytes :=
  match x with
  | It i => enc i
  | ItClo i caps => enc (ICreateClosure i) ++ flat_map cap_bytes caps
  end.
Definition bytes_of (l : list item) : bytes := flat_map item_bytes l.
Definition size (l : list item) : nat := length (bytes_of l).

Definition item_instr (x : item) : instr :=
  match x with It i => i | ItClo i _ => ICreateClosure i end.
Definition item_fits (x : item) : Prop :=
  match x with
  | It i => fits i /\ forall k, i <> ICreateClosure k
  | ItClo i caps => (i < 65536)%N /\ Forall (fun c => (fst c < 65536)%N) caps
  end.

Lemma bytes_of_app a b : bytes_of (a ++ b) = bytes_of a ++ bytes_of b.
Proof. apply flat_map_app. Qed.
Lemma size_app a b : size (a ++ b) = size a + size b.
Proof. unfold size. rewrite bytes_of_app, app_length. reflexivity. Qed.
Lemma size_cons x l : size (x :: l) = length (item_bytes x) + size l.
Proof. unfold size. cbn [bytes_of flat_map]. rewrite app_length. reflexivity. Qed.
Lemma size_nil : size [] = 0. Proof. reflexivity. Qed.

Lemma item_decode pre x post : item_fits x ->
  decode (bytes_of (pre ++ x :: post)) (size pre)
  = Ok (item_instr x, size pre + length (enc (item_instr x))).
Proof.
  intros H. rewrite bytes_of_app. cbn [bytes_of flat_map]. unfold size.
  destruct x as [i|i caps]; cbn [item_bytes item_instr item_fits] in *.
  - apply decode_enc. tauto.
  - rewrite <- app_assoc. apply decode_enc. cbn. tauto.
Qed.

Lemma length_caps caps : length (flat_map cap_bytes caps) = 3 * length caps.
Proof. induction caps as [|c t IH]; [reflexivity|]. cbn [flat_map]. rewrite app_length, IH. cbn. lia. Qed.
