(** Jumps: what the compiler writes and where the machine goes (C14); counts (C15). *)
From Verif Require Import Base RleVec Pool Vecc Float NumText Bytecode Chunk Value Ast Arith VmOps
  Compiler Vm Items CodeRel SpecParse SpecReady SpecStatic SpecJump ProofValue ProofCompiler ProofCode ProofCode3 ProofVm ProofVm4.

Lemma op_u16_runs o v sp c : exists c', write_op_u16 o v sp c = (COk tt, c') /\ opsof c' = opsof c ++ o :: u16b v.
Proof.
  destruct (write_op_u16 o v sp c) as [r c'] eqn:H. assert (r = COk tt) as -> by (injection H as <- _; reflexivity).
  exists c'. split; auto. apply (emits_op_u16 _ _ _ _ _ _ H).
Qed.
Lemma jump_written o sp c : exists c', write_jump o sp c = (COk (S (length (opsof c))), c') /\ opsof c' = opsof c ++ [o; 0%N; 0%N].
Proof.
  unfold write_jump. destruct (op_u16_runs o 0 sp c) as (c1 & H1 & O1). unfold bind at 1. rewrite H1.
  unfold code_len, get_level, bind, ret. cbn. exists c1. split; [|exact O1]. f_equal. f_equal.
  change (ck_ops (lv_chunk (c_level c1))) with (opsof c1). unfold chunk_len. change (ck_ops (lv_chunk (c_level c1))) with (opsof c1).
  rewrite O1, app_length. cbn. lia.
Qed.

Definition shape_ops c A o B := opsof c = A ++ o :: 0%N :: 0%N :: B.
Lemma forward_ok i A B sp c : forward i <> None -> shape_ops c A i B -> length B <= u16max ->
  exists c', patch_jump (S (length A)) sp c = (COk tt, c') /\
    opsof c' = A ++ i :: u16b (N.of_nat (length B)) ++ B.
Proof.
  intros Hi H Hb. assert (E : opsof c = (A ++ [i]) ++ 0%N :: 0%N :: B) by (rewrite H, <- app_assoc; reflexivity).
  destruct (patch_jump (S (length A)) sp c) as [r c'] eqn:Hp.
  assert (Hr : r = COk tt).
  { unfold patch_jump, code_len, bind, get_level, ret, chunk_len in Hp. cbn in Hp. fold (opsof c) in Hp. rewrite H, app_length in Hp. cbn [length] in Hp.
    replace (length A + S (S (S (length B))) - 2 - S (length A)) with (length B) in Hp by lia.
    assert (Hj : (65535 <? N.of_nat (length B))%N = false) by (apply N.ltb_ge; lia). rewrite Hj in Hp.
    unfold patch_u16, bind, get_level, chunk_patch_u16, bc_patch_u16, bc_set in Hp. fold (opsof c) in Hp. rewrite H in Hp.
    replace (S (length A) <? length (A ++ i :: 0%N :: 0%N :: B)) with true in Hp
      by (symmetry; apply Nat.ltb_lt; rewrite app_length; cbn; lia).
    cbn [rbind] in Hp. rewrite upd_length in Hp.
    replace (S (length A) + 1 <? length (A ++ i :: 0%N :: 0%N :: B)) with true in Hp
      by (symmetry; apply Nat.ltb_lt; rewrite app_length; cbn; lia).
    cbn in Hp. injection Hp as <- _. reflexivity. }
  subst r. exists c'. split; auto. replace (S (length A)) with (length (A ++ [i])) in Hp by (rewrite app_length; cbn; lia).
  destruct (patch_jump_inv _ _ _ _ _ _ _ _ Hp E) as (_ & _ & O). rewrite O, <- app_assoc. reflexivity.
Qed.
Lemma forward_large A o B sp c : shape_ops c A o B -> u16max < length B ->
  patch_jump (S (length A)) sp c = (CErr EJumpTooLarge sp, c).
Proof.
  intros H Hb. unfold patch_jump, code_len, bind, get_level, ret, chunk_len. cbn. fold (opsof c). rewrite H, app_length. cbn [length].
  replace (length A + S (S (S (length B))) - 2 - S (length A)) with (length B) by lia.
  assert (Hj : (65535 <? N.of_nat (length B))%N = true) by (apply N.ltb_lt; lia). rewrite Hj. reflexivity.
Qed.

Lemma forward_decode o f A off post : forward o = Some f -> (off < 65536)%N ->
  decode (A ++ o :: u16b off ++ post) (length A) = Ok (f off, length A + 3).
Proof.
  intros Hf Ho. unfold forward in Hf.
  repeat match type of Hf with (if ?b then _ else _) = _ => destruct b eqn:?Eb end; try discriminate; injection Hf as <-;
    apply N.eqb_eq in Eb || (repeat match goal with H : (_ =? _)%N = true |- _ => apply N.eqb_eq in H end); subst o;
    [exact (decode_enc A (IJumpForward off) post Ho)|exact (decode_enc A (IJumpIfFalse off) post Ho)
    |exact (decode_enc A (IJumpIfNotEq off) post Ho)|exact (decode_enc A (IIterNext off) post Ho)].
Qed.
Lemma forward_target o f off next : forward o = Some f -> jump_target (f off) next = Some (next + N.to_nat off).
Proof.
  intros Hf. unfold forward in Hf.
  repeat match type of Hf with (if ?b then _ else _) = _ => destruct b end; try discriminate; injection Hf as <-; reflexivity.
Qed.

Lemma jump_forward_ok o f sp c : forward o = Some f ->
  exists off c1, write_jump o sp c = (COk off, c1) /\ opsof c1 = opsof c ++ [o; 0%N; 0%N] /\
  forall body c2 sp', opsof c2 = opsof c1 ++ body ->
    (length body <= u16max -> exists c3, patch_jump off sp' c2 = (COk tt, c3) /\
       (exists hi lo, opsof c3 = opsof c ++ [o; hi; lo] ++ body) /\
       forall rest, exists i next, decode (opsof c3 ++ rest) (length (opsof c)) = Ok (i, next) /\
         jump_target i next = Some (length (opsof c3))) /\
    (u16max < length body -> patch_jump off sp' c2 = (CErr EJumpTooLarge sp', c2)).
Proof.
  intros Hf. destruct (jump_written o sp c) as (c1 & H1 & O1). exists (S (length (opsof c))), c1. split; auto. split; auto.
  intros body c2 sp' E. assert (S2 : shape_ops c2 (opsof c) o body) by (unfold shape_ops; rewrite E, O1, <- app_assoc; reflexivity).
  split; intros Hb.
  - destruct (forward_ok o (opsof c) body sp' c2) as (c3 & H3 & O3); auto; [congruence|]. exists c3. split; auto. split.
    { do 2 eexists. exact O3. }
    intros rest. exists (f (N.of_nat (length body))), (length (opsof c) + 3). split.
    + rewrite O3, <- app_assoc. cbn [app]. apply (forward_decode o f (opsof c) (N.of_nat (length body)) (body ++ rest)); auto. lia.
    + rewrite (forward_target o f) by auto. rewrite O3. repeat (rewrite app_length; cbn [length app u16b]). f_equal. lia.
  - eapply forward_large; eauto.
Qed.
Lemma jump_backward_ok start sp c : start <= length (opsof c) ->
  (length (opsof c) + 3 - start <= u16max -> exists c1, write_jump_backward start sp c = (COk tt, c1) /\
     (exists hi lo, opsof c1 = opsof c ++ [op_JumpBackward; hi; lo]) /\
     forall rest, exists i next, decode (opsof c1 ++ rest) (length (opsof c)) = Ok (i, next) /\ jump_target i next = Some start) /\
  (u16max < length (opsof c) + 3 - start -> write_jump_backward start sp c = (CErr EJumpTooLarge sp, c)).
Proof.
  intros Hs. unfold write_jump_backward, code_len, bind at 1 2 3 4, get_level, ret, chunk_len. fold (opsof c).
  set (d := N.of_nat (length (opsof c) + 3 - start)). split; intros Hb.
  - assert (Hj : (65535 <? d)%N = false) by (apply N.ltb_ge; unfold d; lia). rewrite Hj.
    destruct (op_u16_runs op_JumpBackward d sp c) as (c1 & H1 & O1). exists c1. split; auto.
    split. { do 2 eexists. exact O1. }
    intros rest. exists (IJumpBackward d), (length (opsof c) + 3). split.
    + rewrite O1, <- app_assoc. apply (decode_enc (opsof c) (IJumpBackward d) rest). cbn. unfold d. lia.
    + cbn [jump_target]. assert (Hl : (length (opsof c) + 3 <? N.to_nat d) = false) by (apply Nat.ltb_ge; unfold d; lia).
      rewrite Hl. f_equal. unfold d. lia.
  - assert (Hj : (65535 <? d)%N = true) by (apply N.ltb_lt; unfold d; lia). rewrite Hj. reflexivity.
Qed.

Section Machine.
Context {D : Type} (m : mode) (hst : host D).
Lemma tick_inv (s s1 : vm D) : tick hst s = AOk tt s1 -> exists r n, s1 = set_count r n s.
Proof using.
  unfold tick, abind, agets, amod. destruct (64 <? _); [|intros H; injection H as <-; do 2 eexists; reflexivity].
  unfold has_runtime_exceeded, abind, agets, amod, aret. cbn. destruct (_ <? _)%N; [discriminate|].
  intros H; injection H as <-; do 2 eexists; reflexivity.
Qed.
Lemma lift_ok {A} (r : res A) (s s' : vm D) a : lift_1 r s = AOk a s' -> r = Ok a /\ s' = s.
Proof using. destruct r; cbn; [|discriminate|discriminate]. injection 1 as -> ->. auto. Qed.
Lemma abind_ok {A B} (x : act D A) (k : A -> act D B) s b s' : abind x k s = AOk b s' -> exists a s1, x s = AOk a s1 /\ k a s1 = AOk b s'.
Proof using. unfold abind. destruct (x s); try discriminate. eauto. Qed.

Lemma exec_jumps i (s s' : vm D) : jumps i = true -> exec m hst i s = AOk tt s' ->
  exists b, taken m hst s i b /\ v_frames s' = v_frames s /\
    (if b then jump_target i (ip s) = Some (ip s') else ip s' = ip s).
Proof using.
  intros Hi H. destruct i; try discriminate; cbn [exec] in H.
  - apply abind_ok in H as (v & s1 & H1 & H). unfold peek, peekn in H1. destruct (v_sp s <? 1) eqn:El; [discriminate|].
    unfold slot in H1. destruct (nth_error _ _) as [x|] eqn:Ex; [|discriminate]. injection H1 as -> ->.
    apply abind_ok in H as (b & s2 & H2 & H). apply lift_ok in H2 as [H2 ->].
    exists (negb b). split; [exists v; split; [rewrite <- Ex; f_equal; lia|rewrite Bool.negb_involutive; auto]|].
    destruct b; cbn [negb]; injection H as <-; auto.
  - apply abind_ok in H as (v & s1 & H1 & H). unfold pop_peek in H1. apply abind_ok in H1 as (cs & s0 & Hp & H1).
    apply abind_ok in H1 as (w & s2 & Hk & H1). injection H1 as <- <-. cbn [fst snd] in H.
    unfold pop in Hp. destruct (v_sp s) as [|k] eqn:Esp; [discriminate|]. unfold slot in Hp. cbn in Hp.
    destruct (nth_error (v_stack s) k) eqn:E1; [|discriminate]. injection Hp as -> <-.
    unfold peek, peekn, slot in Hk. cbn [v_sp v_stack set_stack] in Hk. destruct (k <? 1) eqn:El; [discriminate|]. destruct (nth_error (v_stack s) (k - 0 - 1)) eqn:E2; [|discriminate].
    injection Hk as -> <-. cbv beta in H. change (feq_at hst (set_stack (v_stack s) k s)) with (feq_at hst s) in H.
    assert (T : exists b, geqb (feq_at hst s) w cs = Ok b /\ s' = (if b then set_stack (v_stack s) k s else set_ip (ip s + N.to_nat off) (set_stack (v_stack s) k s))).
    { destruct (geqb (feq_at hst s) w cs) as [[|]| |]; try discriminate; injection H as <-; eexists; split; reflexivity. }
    destruct T as (b & Hb & ->). exists (negb b). split.
    { unfold taken. rewrite Esp. exists w, cs. replace (S k - 2) with (k - 0 - 1) by lia. replace (S k - 1) with k by lia. rewrite Bool.negb_involutive. auto. }
    destruct b; cbn; auto.
  - injection H as <-. exists true. cbn. auto.
  - destruct (ip s <? N.to_nat off) eqn:El; [discriminate|]. injection H as <-. exists true. cbn [taken]. split; auto. split; [reflexivity|].
    cbn [jump_target]. rewrite El. reflexivity.
  - apply abind_ok in H as (n & s1 & H1 & H). injection H1 as <- <-. destruct (v_sp s <? 3) eqn:El; [discriminate|].
    apply abind_ok in H as (ctx & s1 & H1 & H). unfold slot in H1. destruct (nth_error (v_stack s) (v_sp s - 3)) eqn:E3; [|discriminate].
    injection H1 as -> <-. destruct ctx; try discriminate.
    apply abind_ok in H as (u & s1 & H1 & H). unfold set_slot in H1. destruct (v_sp s - 3 <? length (v_stack s)) eqn:El2; [|discriminate]. injection H1 as _ <-.
    apply abind_ok in H as (it & s1 & H1 & H). unfold slot in H1. cbn [v_stack set_stack] in H1. rewrite nth_error_upd_neq in H1 by (apply Nat.ltb_ge in El; lia).
    destruct (nth_error (v_stack s) (v_sp s - 2)) eqn:E2; [|discriminate]. injection H1 as -> <-.
    apply abind_ok in H as (r & s1 & H1 & H). apply lift_ok in H1 as [H1 ->].
    exists (match r with Some _ => false | None => true end). split.
    { do 3 eexists. split; [exact E3|]. split; [exact E2|]. split; [exact H1|]. destruct r; split; intros; congruence. }
    destruct r as [v|].
    + unfold push in H. match type of H with (if ?a then _ else if ?b then _ else _) = _ => destruct a; [discriminate|]; destruct b; [|discriminate] end. injection H as <-. auto.
    + injection H as <-. auto.
Qed.
Lemma machine_jumps (s s' : vm D) i next : decode (ck_ops (cur_chunk s)) (ip s) = Ok (i, next) -> jumps i = true ->
  step m hst s = SNext s' ->
  exists b, taken m hst s i b /\ v_frames s' = v_frames s /\
    (if b then jump_target i next = Some (ip s') else ip s' = next).
Proof using.
  intros Hd Hi H. destruct (ProofVm4.step_inv m hst s s' H) as (s1 & i1 & ip1 & Ht & Hd1 & _ & _ & _ & _ & _ & [[-> _]|[_ He]]).
  - rewrite Hd in Hd1. injection Hd1 as -> _. discriminate.
  - rewrite Hd in Hd1. injection Hd1 as <- <-. destruct (tick_inv _ _ Ht) as (r & n & ->).
    destruct (exec_jumps i _ _ Hi He) as (b & T & F & J). exists b. auto.
Qed.
End Machine.

(** ** Counts *)
Lemma count_emitted m n sp c a c' : cnode m KExpr n sp c = (COk a, c') ->
  match n with
  | NCall _ l => exists pre, code_of c' = pre ++ [op_CallFunction; N.of_nat (length l)]
  | NArray l => exists pre, code_of c' = pre ++ [op_CreateArray; N.of_nat (length l)]
  | NBuiltinCall _ l => exists pre hi lo, code_of c' = pre ++ [op_CallBuiltin; hi; lo; N.of_nat (length l)]
  | _ => True
  end.
Proof.
  intros H. destruct n; auto; cbn [cnode] in H.
  - destruct (over255 items); [discriminate|]. mbi H as u c1 H1. mbi H as u1 c2 H2. injection H as _ <-.
    destruct (emits_op_u8 _ _ _ _ _ _ H2) as [_ O]. exists (opsof c1). exact O.
  - destruct (over255 args); [discriminate|]. mbi H as u c1 H1. mbi H as u1 c2 H2. mbi H as u2 c3 H3. injection H as _ <-.
    destruct (emits_op_u8 _ _ _ _ _ _ H3) as [_ O]. exists (opsof c2). exact O.
  - destruct name as [x csp]. destruct (over255 args); [discriminate|]. mbi H as u c1 H1. mbi H as u1 c2 H2. mbi H as u2 c3 H3. mbi H as u3 c4 H4. mbi H as u5 c5 H5.
    injection H as _ <-. destruct (emits_op _ _ _ _ _ H2) as [_ O2]. destruct (emits_u16 _ _ _ _ _ H4) as [_ O4]. destruct (emits_u8 _ _ _ _ _ H5) as [_ O5].
    assert (O3 : opsof c3 = opsof c2). { unfold add_global_symbol in H3. destruct (pool_add _ _ _). injection H3 as _ <-. reflexivity. }
    exists (opsof c1). do 2 eexists. unfold code_of. fold (opsof c5). rewrite O5, O4, O3, O2, <- !app_assoc. reflexivity.
Qed.
