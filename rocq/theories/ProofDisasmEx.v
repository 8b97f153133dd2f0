(** Witnesses for the disassembler. *)
From Verif Require Import Base RleVec Pool Vecc Float NumText Bytecode Chunk Value Ast Arith VmOps Parse
  Compiler Vm CodeSize SpecReady ProofCode ExProg ProofReadyEx ProofArithEx Lines SpecLines ProofLines Disasm SpecDisasm.

Definition line1 (_ : span) : option nat := Some 1.
Definition tour_listing : list listing :=
  match disassemble line1 10 (script_of tour_ast) with Some (Ok l) => l | _ => [] end.
Lemma tour_listed : disassemble line1 10 (script_of tour_ast) = Some (Ok tour_listing) /\
  map (fun x => length (li_lines x)) tour_listing = [65; 4; 20].
Proof. split; vm_compute; reflexivity. Qed.
Lemma line1_lines c : has_lines line1 c.
Proof. intros p _. discriminate. Qed.
(** The function the main function of [tour] creates. *)
Definition tour_make : function :=
  match nth_error (ck_consts (fn_chunk (sc_function (script_of tour_ast)))) 0 with
  | Some (VFn (MFun g)) => g
  | _ => sc_function (script_of tour_ast)
  end.
Lemma tour_used : used (script_of tour_ast) tour_make /\ fn_arity tour_make = 1%N.
Proof.
  split; [|vm_compute; reflexivity].
  eapply (us_made _ _ 0 (ICreateFunction 0)); [constructor|constructor|vm_compute; reflexivity|reflexivity|vm_compute; reflexivity].
Qed.

(** ["éé"+1]: the 1 begins at byte 7, the text has six characters. *)
Definition wide : rstring := [34; 233; 233; 34; 43; 49]%N.
Definition wide_ast : list nodeS := match parse_code no_oracle 100 wide 0 with PMatch a _ => a | _ => [] end.
Definition offsets (o : option (res (list listing))) : list (list nat) :=
  match o with Some (Ok l) => map (fun x => map ln_offset (li_lines x)) l | _ => [] end.
Lemma wide_listed : (exists i, parse_code no_oracle 100 wide 0 = PMatch wide_ast i) /\
  compile Release wide_ast = COk (script_of wide_ast) /\
  (exists js, dis_chunk (get_lineno simple_table [wide]) (sc_globals (script_of wide_ast)) (fn_chunk (sc_function (script_of wide_ast))) []
     = Ok ([mkLine 1 false 0 op_LoadConst (Some 0%N) (Some (HValue (VString [233; 233]%N))) [0%N];
            mkLine 1 false 6 op_BinaryAdd None (Some (HOp (str "+"))) [];
            mkLine 1 false 7 op_Return None None []], js, 8)) /\
  boundary (fn_chunk (sc_function (script_of wide_ast))) 3.
Proof.
  split; [eexists; vm_compute; reflexivity|]. split; [vm_compute; reflexivity|].
  split; [eexists; vm_compute; reflexivity|].
  eapply (bd_next _ 0 (ILoadConst 0) 3); [constructor|vm_compute; lia|vm_compute; reflexivity].
Qed.

(** A loop in the main function, and a function with an instruction at the offset the
    loop begins at. *)
Definition loop_text : rstring := str
"let i = 0
while i < 3 { i = i + 1 }
let f = fn(a, b) { -a + b }
f(i, 2)".
Definition loop_ast : list nodeS := match parse_code no_oracle 100 loop_text 0 with PMatch a _ => a | _ => [] end.
Definition marked (o : option (res (list listing))) : list (list nat) :=
  match o with
  | Some (Ok l) => map (fun x => map ln_offset (filter ln_is_jump (li_lines x))) l
  | _ => []
  end.
Lemma loop_listed : (exists i, parse_code no_oracle 100 loop_text 0 = PMatch loop_ast i) /\
  compile Release loop_ast = COk (script_of loop_ast) /\
  marked (disassemble line1 5 (script_of loop_ast)) = [[33]; [7]] /\
  offsets (disassemble line1 5 (script_of loop_ast)) =
    [[0; 3; 6; 7; 10; 13; 14; 17; 20; 23; 26; 27; 30; 33; 34; 35; 38; 41; 44; 47; 50; 52]; [0; 3; 4; 7; 8]].
Proof. split; [eexists; vm_compute; reflexivity|]. split; [vm_compute; reflexivity|]. split; vm_compute; reflexivity. Qed.

Definition loop_out : list listing := match disassemble line1 5 (script_of loop_ast) with Some (Ok l) => l | _ => [] end.
Notation loop_main := (sc_function (script_of loop_ast)).
Definition loop_fn : function :=
  match nth_error (ck_consts (fn_chunk loop_main)) 3 with Some (VFn (MFun g)) => g | _ => loop_main end.
Lemma loop_disassembled : disassemble line1 5 (script_of loop_ast) = Some (Ok loop_out).
Proof. vm_compute. reflexivity. Qed.
(** The first [n] boundaries. *)
Fixpoint steps (c : chunk value) (n : nat) : nat :=
  match n with
  | O => 0
  | S k => match decode (ck_ops c) (steps c k) with
           | Ok (i, next) => next + trailer c i
           | _ => steps c k
           end
  end.
Lemma steps_boundary c n : (forall k, k < n -> steps c k < length (ck_ops c)) -> boundary c (steps c n).
Proof.
  induction n as [|n IH]; intros H; [constructor|]. assert (B := IH (fun k Hk => H k ltac:(lia))).
  cbn [steps]. destruct (decode (ck_ops c) (steps c n)) as [[i next]| |] eqn:E; try exact B.
  eapply bd_next; eauto.
Qed.
Lemma loop_target : target_in (fn_chunk loop_main) 7.
Proof.
  exists 30, (IJumpBackward 26), 33. split; [|split; [vm_compute; lia|split; vm_compute; reflexivity]].
  replace 30 with (steps (fn_chunk loop_main) 12) by (vm_compute; reflexivity). apply steps_boundary.
  intros k Hk. do 12 (destruct k as [|k]; [vm_compute; lia|]). lia.
Qed.
Lemma loop_no_target t : ~ target_in (fn_chunk loop_fn) t.
Proof.
  intros (p & i & next & Hb & Hp & Hd & Hj).
  assert (K : forall q, q < length (ck_ops (fn_chunk loop_fn)) ->
    match decode (ck_ops (fn_chunk loop_fn)) q with Ok (i, next) => jump_target i next = None | _ => True end).
  { intros q Hq. assert (Hq' : q < 9) by (eapply Nat.lt_le_trans; [exact Hq|vm_compute; lia]). clear Hq.
    do 9 (destruct q as [|q]; [vm_compute; exact I || reflexivity|]). lia. }
  specialize (K p Hp). rewrite Hd in K. congruence.
Qed.

Lemma loop_used : used (script_of loop_ast) loop_fn.
Proof.
  assert (B : boundary (fn_chunk loop_main) 35).
  { replace 35 with (steps (fn_chunk loop_main) 15) by (vm_compute; reflexivity). apply steps_boundary.
    intros k Hk. do 15 (destruct k as [|k]; [vm_compute; lia|]). lia. }
  assert (D : decode (ck_ops (fn_chunk loop_main)) 35 = Ok (ICreateFunction 3, 38)) by (vm_compute; reflexivity).
  assert (C : nth_error (ck_consts (fn_chunk loop_main)) (N.to_nat 3) = Some (VFn (MFun loop_fn))) by (vm_compute; reflexivity).
  exact (us_made _ _ 35 _ 38 3%N loop_fn (us_main _) B D eq_refl C).
Qed.
Lemma loop_marks : exists main l, loop_out = [main; l] /\
  map ln_offset (filter ln_is_jump (li_lines main)) = [33] /\ map ln_offset (filter ln_is_jump (li_lines l)) = [7] /\
  map ln_offset (li_lines main) = [0; 3; 6; 7; 10; 13; 14; 17; 20; 23; 26; 27; 30; 33; 34; 35; 38; 41; 44; 47; 50; 52].
Proof.
  destruct loop_listed as (_ & _ & H3 & H4). rewrite loop_disassembled in H3, H4. revert H3 H4.
  generalize loop_out. intros out H3 H4. cbn [marked offsets] in H3, H4.
  destruct out as [|main [|l [|x y]]]; try discriminate H3. exists main, l. injection H3 as H3 H3'. injection H4 as H4 _. auto.
Qed.

(** [loop_text] meets the conditions on texts. *)
Lemma loop_weight : weights loop_ast <= N.to_nat 65535.
Proof. apply (Nat.le_trans _ 100); [apply Nat.leb_le; vm_compute; reflexivity|lia]. Qed.
Lemma loop_chars : ascii loop_text /\ only_lf loop_text.
Proof.
  split; apply Forall_forall; intros c Hc.
  - assert (K : forallb (fun c => c <? 128)%N loop_text = true) by (vm_compute; reflexivity).
    rewrite forallb_forall in K. now apply N.ltb_lt, K.
  - assert (K : forallb (fun c => (c =? 10) || ((32 <=? c) && (c <? 128)))%N loop_text = true) by (vm_compute; reflexivity).
    rewrite forallb_forall in K. specialize (K c Hc). cbn [In].
    apply orb_true_iff in K as [K|K]; [apply N.eqb_eq in K; lia|]. apply andb_true_iff in K as [K1 K2].
    apply N.leb_le in K1. apply N.ltb_lt in K2. lia.
Qed.
Lemma loop_nonempty : loop_text <> [].
Proof. discriminate. Qed.
Lemma loop_functions : functions_of loop_main [loop_main; loop_fn].
Proof.
  constructor. replace (ck_consts (fn_chunk loop_main)) with [VInt 0; VInt 3; VInt 1; VFn (MFun loop_fn); VInt 2] by (vm_compute; reflexivity).
  do 3 (apply fs_other; [discriminate|]). apply (fs_fn loop_fn _ [loop_fn] []).
  - constructor. replace (ck_consts (fn_chunk loop_fn)) with (@nil value) by (vm_compute; reflexivity). constructor.
  - apply fs_other; [discriminate|]. constructor.
Qed.
