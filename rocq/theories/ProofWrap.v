(** Identifiers of constants have sixteen bits: a program of more than 65536 different
    literals loads the wrong ones (C01, C39). *)
From Verif Require Import Base RleVec Pool Vecc Float NumText Bytecode Chunk Value Ast Arith VmOps
  Compiler Items Vm SpecReady SpecRel SpecVm SpecEval ProofArithEx ExProg.

Ltac Zify.zify_post_hook ::= Z.div_mod_to_equations.

(** The statements [i; i+1; ...], wherever they are in the text. *)
Fixpoint numbers (i : nat) (l : list span) : list nodeS :=
  match l with [] => [] | sp :: l => (NLiteral (LInt (Z.of_nat i)), sp) :: numbers (S i) l end.

(** What they are compiled to; [cid i] is the identifier of the constant [i]. *)
Definition cid (i : nat) : N := pool_id_from i.
Fixpoint code (i k : nat) : bytes :=
  match k with
  | O => []
  | S O => enc (ILoadConst (cid i))
  | S k => enc (ILoadConst (cid i)) ++ enc IPop ++ code (S i) k
  end.
Definition vint (i : nat) : value := VInt (Z.of_nat i).

Lemma cid_fits i : (cid i < 65536)%N.
Proof. unfold cid, pool_id_from, wrap16u. apply N.mod_lt. lia. Qed.
Definition low (i : nat) : nat := N.to_nat (cid i).
Lemma low_is i : Z.of_nat (low i) = (Z.of_nat i mod 65536)%Z.
Proof.
  unfold low, cid, pool_id_from, wrap16u. rewrite N_nat_Z, N2Z.inj_mod by discriminate.
  rewrite nat_N_Z. reflexivity.
Qed.
Lemma low_le i : low i <= i.
Proof.
  unfold low, cid, pool_id_from, wrap16u.
  pose proof (N.mod_le (N.of_nat i) 65536 ltac:(discriminate)). lia.
Qed.

(** A level in which the constants so far are [0 .. i-1]. *)
Definition counted (i : nat) (l : level) : Prop :=
  p_entries (lv_consts l) = map vint (List.seq 0 i) /\
  (forall j, i <= j -> alookup const_eqb (vint j) (p_dups (lv_consts l)) = None).

Lemma vint_other i j : i <> j -> const_eqb (vint i) (vint j) = false.
Proof. intros H. cbn. apply Z.eqb_neq. lia. Qed.

Lemma one_literal m (p : bool) i sp c : counted i (c_level c) ->
  exists l, cnode m (KStmt p) (NLiteral (LInt (Z.of_nat i))) sp c =
              (COk tt, mkCompiler l (c_enclosing c) (c_globals c) (c_externals c)) /\
    counted (S i) l /\ lv_depth l = lv_depth (c_level c) /\
    ck_ops (lv_chunk l) = ck_ops (lv_chunk (c_level c)) ++ enc (ILoadConst (cid i)) ++ (if p then enc IPop else []).
Proof.
  intros [H1 H2]. destruct c as [l en gl ex]. cbn [c_level c_enclosing c_globals c_externals] in *.
  cbn [cnode]. unfold add_constant, write_op_u16, write_op, write_u16, mod_level, get_level, set_level, bind, ret.
  cbn [c_level c_enclosing c_globals c_externals literal_to_value].
  unfold pool_add. fold (vint i). rewrite (H2 i (le_n i)).
  assert (E : length (p_entries (lv_consts l)) = i) by (rewrite H1, map_length, seq_length; reflexivity).
  unfold pool_add_force. rewrite E.
  destruct p.
  all: cbn [fin]; unfold write_op, mod_level, get_level, set_level, bind, ret;
    cbn [c_level c_enclosing c_globals c_externals lv_set_chunk lv_set_consts lv_chunk];
    eexists; (split; [reflexivity|]); unfold counted, lv_set_chunk, lv_set_consts;
    cbn [lv_consts lv_depth lv_chunk p_entries p_dups].
  all: split; [split; [rewrite H1, seq_S, map_app; reflexivity|]|split; [reflexivity|]].
  1, 3: intros j Hj; unfold ainsert; cbn [alookup]; rewrite vint_other by lia; apply H2; lia.
  all: unfold chunk_write_op, chunk_write_u8, chunk_write_u16, bc_write_u8, bc_write_u16; cbn [ck_ops];
    cbn [enc]; unfold u16b, cid; rewrite <- ?app_assoc; reflexivity.
Qed.

Lemma literals_compile m l : forall sp0 i c, counted i (c_level c) ->
  exists sp lv, compile_stmnts m (numbers i (sp0 :: l)) c =
                 (COk sp, mkCompiler lv (c_enclosing c) (c_globals c) (c_externals c)) /\
    counted (i + S (length l)) lv /\ lv_depth lv = lv_depth (c_level c) /\
    ck_ops (lv_chunk lv) = ck_ops (lv_chunk (c_level c)) ++ code i (S (length l)).
Proof.
  induction l as [|sp1 l IH]; intros sp0 i c H.
  - destruct (one_literal m false i sp0 c H) as (lv & E & C & D & O).
    exists sp0, lv. unfold compile_stmnts. cbn [numbers stmnts_with fst snd].
    unfold bind at 1. rewrite E. unfold ret. split; [reflexivity|]. cbn [length].
    rewrite Nat.add_1_r. split; [exact C|]. split; [exact D|]. rewrite O, app_nil_r. reflexivity.
  - destruct (one_literal m true i sp0 c H) as (lv & E & C & D & O).
    destruct (IH sp1 (S i) (mkCompiler lv (c_enclosing c) (c_globals c) (c_externals c)) C) as (sp & l' & E' & C' & D' & O').
    cbn [c_level c_enclosing c_globals c_externals] in *.
    exists sp, l'. unfold compile_stmnts in *. cbn [numbers] in E'. cbn [numbers].
    cbn [stmnts_with]. cbn [stmnts_with] in E'. cbn [fst snd] in *.
    unfold bind at 1. rewrite E. split; [exact E'|]. cbn [length].
    split; [replace (i + S (S (length l))) with (S i + S (length l)) by lia; exact C'|].
    split; [congruence|]. rewrite O', O.
    change (code i (S (S (length l)))) with (enc (ILoadConst (cid i)) ++ enc IPop ++ code (S i) (S (length l))).
    rewrite <- !app_assoc. reflexivity.
Qed.

Lemma counting_compiles m l n : length l = S n -> exists sc, compile m (numbers 0 l) = COk sc /\
  ck_ops (fn_chunk (sc_function sc)) = code 0 (S n) ++ enc IReturn /\
  ck_consts (fn_chunk (sc_function sc)) = map vint (List.seq 0 (S n)).
Proof.
  destruct l as [|sp0 l]; [discriminate|]. intros Hl. injection Hl as Hl.
  unfold compile.
  set (c0 := snd (set_main_span (numbers 0 (sp0 :: l)) (compiler_new main_name))).
  assert (H0 : counted 0 (c_level c0)) by (split; [reflexivity|intros; reflexivity]).
  destruct (literals_compile m l sp0 0 c0 H0) as (sp & lv & E & [C _] & D & O).
  unfold bind.
  assert (E0 : set_main_span (numbers 0 (sp0 :: l)) (compiler_new main_name) = (COk tt, c0)) by reflexivity.
  rewrite E0, E. eexists. split; [reflexivity|].
  cbn [as_script sc_function c_level]. unfold level_finish. cbn [fst fn_chunk].
  assert (D0 : lv_depth lv = 0) by (rewrite D; reflexivity). rewrite D0. cbn [Nat.eqb].
  unfold chunk_write_op, chunk_write_u8, bc_write_u8. cbn [ck_ops ck_consts].
  rewrite O, C, Hl. split; reflexivity.
Qed.

(** ** Running *)
Section Run.
Context (ops : bytes) (n : nat).
Hypothesis ops_are : ops = code 0 (S n) ++ enc IReturn.

Lemma code_step i k : code i (S (S k)) = enc (ILoadConst (cid i)) ++ enc IPop ++ code (S i) (S k).
Proof. reflexivity. Qed.

(** What comes before statement [i]. *)
Fixpoint before (i : nat) : bytes :=
  match i with O => [] | S i => before i ++ enc (ILoadConst (cid i)) ++ enc IPop end.
Lemma before_len i : length (before i) = 4 * i.
Proof. induction i as [|i IH]; [reflexivity|]. cbn [before]. rewrite app_length, IH. cbn. lia. Qed.
Lemma code_split i : i <= n -> ops = before i ++ code i (S (n - i)) ++ enc IReturn.
Proof using ops_are.
  induction i as [|i IH]; intros H.
  - rewrite Nat.sub_0_r. exact ops_are.
  - rewrite IH by lia. replace (n - i) with (S (n - S i)) by lia.
    rewrite code_step. cbn [before]. rewrite <- !app_assoc. reflexivity.
Qed.

(** The machine before statement [i]. *)
Context {D : Type} (m : mode).
Definition at_stmt (i : nat) (s : vm D) : Prop :=
  ck_ops (cur_chunk s) = ops /\ ck_consts (cur_chunk s) = map vint (List.seq 0 (S n)) /\
  ip s = 4 * i /\ v_sp s = 0 /\ f_st (v_frame s) = 0 /\ v_frames s = [] /\
  length (v_stack s) = 50 /\ v_opts s = small.

Lemma ticks (s : vm D) : v_opts s = small ->
  exists r k, tick plain_host s = AOk tt (set_count r k s).
Proof.
  clear. intros H. unfold tick, abind, agets. destruct (64 <? v_n s) eqn:E.
  - unfold has_runtime_exceeded, abind, agets, amod.
    cbn [v_opts set_count]. rewrite H. eexists. eexists. reflexivity.
  - unfold amod. eexists. eexists. reflexivity.
Qed.

Lemma const_at i : i <= n ->
  nth_error (map vint (List.seq 0 (S n))) (N.to_nat (cid i)) = Some (vint (low i)).
Proof.
  clear. intros H. change (N.to_nat (cid i)) with (low i). pose proof (low_le i).
  apply map_nth_error.
  rewrite (nth_error_nth' _ 0) by (rewrite seq_length; lia).
  rewrite seq_nth by lia. reflexivity.
Qed.

Lemma load_step i (s : vm D) : i <= n -> at_stmt i s ->
  exists s1, step m plain_host s = SNext s1 /\ ip s1 = 4 * i + 3 /\ v_sp s1 = 1 /\
    nth_error (v_stack s1) 0 = Some (vint (low i)) /\
    ck_ops (cur_chunk s1) = ops /\ ck_consts (cur_chunk s1) = map vint (List.seq 0 (S n)) /\
    f_st (v_frame s1) = 0 /\ v_frames s1 = [] /\ length (v_stack s1) = 50 /\ v_opts s1 = small.
Proof using ops_are.
  intros Hi (H1 & H2 & H3 & H4 & H5 & H6 & H7 & H8).
  destruct (ticks s H8) as (r & k & T).
  pose proof (code_split i Hi) as S.
  assert (S' : ops = before i ++ enc (ILoadConst (cid i)) ++
                     (if n - i =? 0 then [] else enc IPop ++ code (Datatypes.S i) (n - i)) ++ enc IReturn).
  { rewrite S. destruct (n - i) as [|j]; [reflexivity|]. rewrite code_step, <- !app_assoc. reflexivity. }
  pose proof (decode_enc (before i) (ILoadConst (cid i))
                ((if n - i =? 0 then [] else enc IPop ++ code (Datatypes.S i) (n - i)) ++ enc IReturn)
                (cid_fits i)) as De.
  rewrite <- S', before_len in De.
  assert (L : 4 * i < length ops)
    by (rewrite S', app_length, before_len, app_length; cbn [enc length]; lia).
  unfold step. rewrite T.
  change (cur_chunk (set_count r k s)) with (cur_chunk s). change (ip (set_count r k s)) with (ip s).
  unfold chunk_len. rewrite H1, H3.
  rewrite (proj2 (Nat.leb_gt _ _) L), De. cbn [exec].
  unfold abind, get_constant, chunk_get_constant.
  match goal with |- context [cur_chunk (set_ip ?a ?b)] =>
    change (cur_chunk (set_ip a b)) with (cur_chunk s) end.
  rewrite H2, (const_at i Hi). unfold push.
  match goal with |- context [o_stack_size (v_opts (set_ip ?a ?b))] =>
    change (v_opts (set_ip a b)) with (v_opts s); change (v_sp (set_ip a b)) with (v_sp s);
    change (v_stack (set_ip a b)) with (v_stack s) end.
  rewrite H8, H4, H7. cbn [small o_stack_size Nat.leb Nat.ltb].
  eexists. split; [reflexivity|]. 
  cbn [set_stack v_sp v_stack]. 
  split; [reflexivity|]. split; [reflexivity|].
  split; [destruct (v_stack s) as [|x t]; [discriminate H7|reflexivity]|].
  do 4 (split; [assumption|]). split; [|assumption].
  destruct (v_stack s) as [|x t]; [discriminate H7|exact H7].
Qed.

Lemma pop_step i (s : vm D) : i < n -> ck_ops (cur_chunk s) = ops ->
  ip s = 4 * i + 3 -> v_sp s = 1 -> length (v_stack s) = 50 -> v_opts s = small ->
  exists r k, step m plain_host s = SNext (set_stack (v_stack s) 0 (set_ip (4 * (S i)) (set_count r k s))).
Proof using ops_are.
  intros Hi H1 H3 H4 H7 H8. destruct (ticks s H8) as (r & k & T).
  pose proof (code_split i ltac:(lia)) as E.
  replace (n - i) with (S (n - S i)) in E by lia. rewrite code_step, <- !app_assoc in E.
  rewrite app_assoc in E.
  pose proof (decode_enc (before i ++ enc (ILoadConst (cid i))) IPop (code (S i) (S (n - S i)) ++ enc IReturn) I) as De.
  rewrite <- E in De.
  assert (L0 : length (before i ++ enc (ILoadConst (cid i))) = 4 * i + 3)
    by (rewrite app_length, before_len; reflexivity).
  rewrite L0 in De.
  assert (L : 4 * i + 3 < length ops)
    by (rewrite E, app_length, L0, app_length; cbn [enc length]; lia).
  exists r, k. unfold step. rewrite T.
  change (cur_chunk (set_count r k s)) with (cur_chunk s). change (ip (set_count r k s)) with (ip s).
  unfold chunk_len. rewrite H1, H3, (proj2 (Nat.leb_gt _ _) L), De. cbn [exec].
  unfold abind, pop.
  match goal with |- context [v_sp (set_ip ?a ?b)] => change (v_sp (set_ip a b)) with (v_sp s) end.
  rewrite H4. unfold slot, aret. cbn [v_stack set_stack].
  match goal with |- context [v_stack (set_ip ?a ?b)] => change (v_stack (set_ip a b)) with (v_stack s) end.
  destruct (v_stack s) as [|x t] eqn:Es; [discriminate H7|]. cbn [nth_error].
  replace (4 * i + 3 + length (enc IPop)) with (4 * S i) by (cbn; lia). reflexivity.
Qed.

Lemma last_step (s : vm D) : ck_ops (cur_chunk s) = ops ->
  ip s = 4 * n + 3 -> v_sp s = 1 -> length (v_stack s) = 50 -> v_opts s = small ->
  f_st (v_frame s) = 0 -> v_frames s = [] ->
  forall v, nth_error (v_stack s) 0 = Some v -> exists s', step m plain_host s = SDone v s' /\ v_data s' = v_data s.
Proof using ops_are.
  intros H1 H3 H4 H7 H8 H5 H6 v Hv. destruct (ticks s H8) as (r & k & T).
  pose proof (code_split n (le_n n)) as E. rewrite Nat.sub_diag in E. cbn [code] in E.
  rewrite app_assoc in E.
  pose proof (decode_enc (before n ++ enc (ILoadConst (cid n))) IReturn [] I) as De.
  rewrite app_nil_r in De. rewrite <- E in De.
  assert (L0 : length (before n ++ enc (ILoadConst (cid n))) = 4 * n + 3)
    by (rewrite app_length, before_len; reflexivity).
  rewrite L0 in De.
  assert (L : 4 * n + 3 < length ops)
    by (rewrite E, app_length, L0; cbn [enc length]; lia).
  unfold step. rewrite T.
  change (cur_chunk (set_count r k s)) with (cur_chunk s). change (ip (set_count r k s)) with (ip s).
  unfold chunk_len. rewrite H1, H3, (proj2 (Nat.leb_gt _ _) L), De.
  unfold do_return, pop.
  match goal with |- context [v_sp (set_ip ?a ?b)] => change (v_sp (set_ip a b)) with (v_sp s) end.
  rewrite H4. unfold slot. cbn [v_stack set_stack].
  match goal with |- context [v_stack (set_ip ?a ?b)] => change (v_stack (set_ip a b)) with (v_stack s) end.
  rewrite Hv. cbn [v_sp]. 
  match goal with |- context [close_range ?a ?b ?c] =>
    change (close_range a b c) with (AOk tt c) end.
  cbn [v_frames v_sp set_stack set_ip set_frames set_count].
  rewrite H6. destruct m; eexists; split; reflexivity.
Qed.

Lemma all_steps k : forall i (s : vm D), i + k = n -> at_stmt i s ->
  exists s', loop m plain_host (2 * S k) s = RDone (vint (low n)) s'.
Proof using ops_are.
  induction k as [|k IH]; intros i s Hk H.
  - assert (i = n) by lia. subst i.
    destruct (load_step n s (le_n n) H) as (s1 & E1 & A1 & A2 & A3 & A4 & A5 & A6 & A7 & A8 & A9).
    destruct (last_step s1 A4 A1 A2 A8 A9 A6 A7 _ A3) as (s2 & E2 & _).
    exists s2. change (2 * 1) with 2. cbn [loop]. rewrite E1, E2. reflexivity.
  - destruct (load_step i s ltac:(lia) H) as (s1 & E1 & A1 & A2 & A3 & A4 & A5 & A6 & A7 & A8 & A9).
    destruct (pop_step i s1 ltac:(lia) A4 A1 A2 A8 A9) as (r & j & E2).
    replace (2 * S (S k)) with (S (S (2 * S k))) by lia. cbn [loop]. rewrite E1. cbn [loop]. rewrite E2.
    apply (IH (S i)); [lia|]. unfold at_stmt.
    repeat split; assumption.
Qed.
End Run.

(** What the program does. *)
Lemma counting_runs D m (d : D) l n sc : length l = S n -> compile m (numbers 0 l) = COk sc ->
  exists s', run m plain_host (2 * S n) (vm_new d sc small) = RDone (VInt (Z.of_nat n mod 65536)) s'.
Proof.
  intros Hl H. destruct (counting_compiles m l n Hl) as (sc' & E & O & C).
  assert (sc' = sc) by congruence. subst sc'. rewrite <- low_is.
  unfold run. apply (all_steps _ n O m n 0); [reflexivity|].
  unfold at_stmt. repeat split; try assumption; reflexivity.
Qed.

(** What the definition says. *)
Lemma numbers_mean D m orc opts f g b (fuel : nat) (s : sst) l : forall sp i r,
  stmts_with (ev (D := D) m orc opts b (call_at m orc opts f g b fuel) fuel true) (numbers i (sp :: l)) r s =
  Got (Some (VInt (Z.of_nat (i + length l))), r) s.
Proof.
  induction l as [|sp1 l IH]; intros sp i r.
  - rewrite Nat.add_0_r. reflexivity.
  - cbn [length]. replace (i + S (length l)) with (S i + length l) by lia. rewrite <- (IH sp1 (S i) r). reflexivity.
Qed.
Lemma counting_means D m orc opts f g b fuel (st : sst (D := D)) l n : length l = S n ->
  eval m orc opts f g b fuel (numbers 0 l) st = Got (VInt (Z.of_nat n)) st.
Proof.
  destruct l as [|sp l]; [discriminate|]. intros H. injection H as <-.
  unfold eval. rewrite numbers_mean. reflexivity.
Qed.

(** It declares nothing and uses no name. *)
Lemma numbers_placed l : forall i, placed_program (numbers i l).
Proof. induction l as [|sp l IH]; intros i; [reflexivity|]. exact (IH (S i)). Qed.
Lemma numbers_ordinary l : forall i, ordinary_names (numbers i l).
Proof.
  induction l as [|sp l IH]; intros i; constructor; [|exact (IH (S i))].
  cbn [fst]. intros b Hb. inversion Hb; subst; [exact Logic.I|contradiction].
Qed.
