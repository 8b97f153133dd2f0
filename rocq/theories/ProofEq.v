(** Equality of callables on the machine (C30): symmetric, transitive; of a callable with
    itself; and one that never ends. *)
From Verif Require Import Base RleVec Pool Vecc Float NumText Bytecode Chunk Value Ast Arith VmOps Parse
  Compiler Vm SpecArith SpecEq ProofValue ProofArith2 ProofArithEx ProofPosEx ExProg.

Lemma list_eqb_sym {A} (e : A -> A -> bool) (H : forall x y, e x y = e y x) : forall l l', list_eqb e l l' = list_eqb e l' l.
Proof. induction l as [|x l IH]; destruct l'; cbn; auto. now rewrite H, IH. Qed.
Lemma list_eqb_trans {A} (e : A -> A -> bool) (H : forall x y z, e x y = true -> e y z = true -> e x z = true) :
  forall l l' l'', list_eqb e l l' = true -> list_eqb e l' l'' = true -> list_eqb e l l'' = true.
Proof.
  induction l as [|x l IH]; destruct l', l''; cbn; auto; try congruence. rewrite !andb_true_iff. intros [A1 A2] [B1 B2]. eauto.
Qed.
Lemma list_eqb_refl {A} (e : A -> A -> bool) (H : forall x, e x x = true) l : list_eqb e l l = true.
Proof. induction l; cbn; auto. now rewrite H, IHl. Qed.
Lemma seqb_sym a b : seqb a b = seqb b a.
Proof. unfold seqb. destruct (list_eq_dec N.eq_dec a b), (list_eq_dec N.eq_dec b a); congruence. Qed.
Lemma span_eqb_sym a b : span_eqb a b = span_eqb b a.
Proof. unfold span_eqb. now rewrite (Nat.eqb_sym (sp_start a)), (Nat.eqb_sym (sp_end a)), (Nat.eqb_sym (sp_src a)). Qed.
Lemma beqb_sym a b : Bool.eqb a b = Bool.eqb b a. Proof. now destruct a, b. Qed.

Lemma function_eqb_sym : forall f g, function_eqb feqb false f g = function_eqb feqb false g f.
Proof.
  fix IH 1; intros [n s a u [ops spans consts syms]] [n' s' a' u' [ops' spans' consts' syms']].
  cbn [function_eqb]. set (go := fix go (l l' : list value) : bool := _).
  rewrite (seqb_sym n), (span_eqb_sym s), (N.eqb_sym a), (N.eqb_sym u), (list_eqb_sym N.eqb N.eqb_sym ops), (list_eqb_sym seqb seqb_sym syms).
  assert (rle_eqb spans spans' = rle_eqb spans' spans) as -> by (apply list_eqb_sym; intros [] []; cbn [fst snd]; now rewrite Nat.eqb_sym, span_eqb_sym).
  cut (go consts consts' = go consts' consts); [now intros ->|].
  revert consts'; induction consts as [|x l IHl]; destruct consts' as [|x' l']; cbn [go]; auto.
  rewrite IHl. f_equal. clear IHl l l'. clear go.
  revert x'. induction x using gvalue_rect'; intros w; destruct w; cbn; auto.
  - apply beqb_sym.
  - apply Z.eqb_sym.
  - apply feqb_sym.
  - now rewrite (Z.eqb_sym a0), (Z.eqb_sym b).
  - now rewrite (N.eqb_sym r), (N.eqb_sym g), (N.eqb_sym b), (N.eqb_sym a0).
  - apply seqb_sym.
  - now rewrite seqb_sym, N.eqb_sym.
  - revert data. induction H as [|x l0 Hx Hl0 IHH]; destruct data as [|y t]; auto. now rewrite Hx, IHH.
  - apply N.eqb_sym.
  - now rewrite IHx1, IHx2.
  - destruct f as [f|], f0 as [g|]; auto.
Qed.

Lemma function_eqb_trans : forall f g h, function_eqb feqb false f g = true -> function_eqb feqb false g h = true -> function_eqb feqb false f h = true.
Proof.
  fix IH 1; intros [n s a u [ops spans consts syms]] [n' s' a' u' [ops' spans' consts' syms']] [n2 s2 a2 u2 [ops2 spans2 consts2 syms2]].
  cbn [function_eqb]. set (go := fix go (l l' : list value) : bool := _).
  rewrite !andb_true_iff, !seqb_eq, !span_eqb_eq, !N.eqb_eq.
  intros [[[[[[[-> ->] ->] ->] Hops] Hsp] Hgo] Hsym] [[[[[[[-> ->] ->] ->] Hops'] Hsp'] Hgo'] Hsym'].
  apply list_eqb_sound in Hops; [subst ops'| intros; apply N.eqb_eq; auto].
  apply rle_eqb_sound in Hsp; subst spans'. apply list_eqb_sound in Hsym; [subst syms'| intros; apply seqb_eq; auto].
  repeat split; auto. clear Hops' Hsp' Hsym'.
  revert consts' consts2 Hgo Hgo'; induction consts as [|x l IHl]; destruct consts' as [|x' l'], consts2 as [|x2 l2]; cbn [go]; auto; try congruence.
  rewrite !andb_true_iff; intros [Hx Hl] [Hx' Hl']. split; [clear IHl Hl Hl'|eauto].
  clear go; revert x' x2 Hx Hx'; induction x using gvalue_rect'; intros w w2; destruct w; cbn; try discriminate; destruct w2; try discriminate; auto.
  - intros A B. apply Bool.eqb_prop in A, B. subst. apply Bool.eqb_reflx.
  - rewrite !Z.eqb_eq. congruence.
  - apply feqb_trans.
  - rewrite !andb_true_iff, !Z.eqb_eq. intuition congruence.
  - rewrite !andb_true_iff, !N.eqb_eq. intuition congruence.
  - rewrite !seqb_eq. congruence.
  - rewrite !andb_true_iff, !seqb_eq, !N.eqb_eq. intuition congruence.
  - revert data data0. induction H as [|x l0 Hx Hl0 IHH]; intros [|y t] [|z v]; auto; try congruence.
    rewrite !andb_true_iff. intros [A1 A2] [B1 B2]. split; eauto.
  - rewrite !N.eqb_eq. congruence.
  - rewrite !andb_true_iff. intros [A1 A2] [B1 B2]. split; eauto.
  - destruct f as [f|], f0 as [g|], f1 as [h|]; try discriminate. apply IH.
Qed.

Lemma rle_eqb_refl r : rle_eqb r r = true.
Proof. apply list_eqb_refl. intros []. cbn [fst snd]. rewrite Nat.eqb_refl. now apply span_eqb_eq. Qed.
Lemma function_eqb_refl : forall f, function_free f -> function_eqb feqb false f f = true.
Proof.
  fix IH 1. intros [n s a u [ops spans consts syms]] [Hc]. cbn [fn_chunk ck_consts] in Hc.
  cbn [function_eqb]. set (go := fix go (l l' : list value) : bool := _).
  rewrite seqb_refl, (proj2 (span_eqb_eq _ _) eq_refl), !N.eqb_refl, (list_eqb_refl _ N.eqb_refl), rle_eqb_refl, (list_eqb_refl _ seqb_refl).
  rewrite andb_true_r. cbn [andb]. induction consts as [|x l IHl]; [reflexivity|]. cbn [go]. apply andb_true_iff. split; [|apply IHl; intros v Hv; apply Hc; now right].
  pose proof (Hc x (or_introl eq_refl)) as Hx. clear go IHl Hc.
  destruct x; cbn [ceqb]; rewrite ?Bool.eqb_reflx, ?Z.eqb_refl, ?N.eqb_refl, ?seqb_refl; auto.
  - apply feqb_spec. destruct Hx as [Hx|(g & Hg & _)]; [auto|discriminate Hg].
  - exfalso. destruct Hx as [[]|(g & Hg & _)]; discriminate Hg.
  - exfalso. destruct Hx as [[]|(g & Hg & _)]; discriminate Hg.
  - destruct f as [f|f us].
    + apply IH. destruct Hx as [[]|(g & [= ->] & Hg)]. exact Hg.
    + exfalso. destruct Hx as [[]|(g & Hg & _)]; discriminate Hg.
Qed.

Lemma up_list_sym veq h (H : forall x y, veq x y = veq y x) : forall us vs, length us = length vs -> up_list_eq veq h us vs = up_list_eq veq h vs us.
Proof.
  induction us as [|u us IH]; destruct vs as [|v vs]; intros Hl; try discriminate; auto. injection Hl as Hl. cbn [up_list_eq]. rewrite (IH _ Hl).
  destruct (nth_error h u) as [[l|x]|]; destruct (nth_error h v) as [[r|y]|]; auto; [now rewrite Nat.eqb_sym|now rewrite H].
Qed.
Lemma fn_eq_sym d h : forall f g, fn_eq d h f g = fn_eq d h g f.
Proof.
  induction d as [|d IH]; [reflexivity|]. intros [a|a us] [b|b vs]; cbn [fn_eq]; auto; [now rewrite function_eqb_sym|].
  rewrite (function_eqb_sym a b). destruct (negb (function_eqb feqb false b a)); [reflexivity|]. rewrite Nat.eqb_sym.
  destruct (Nat.eqb_spec (length vs) (length us)); [cbn [negb]|reflexivity]. apply up_list_sym; [|congruence]. now apply geqb_sym.
Qed.
Lemma up_list_trans veq h (H : forall x y z, veq x y = Ok true -> veq y z = Ok true -> veq x z = Ok true) :
  forall us vs ws, length us = length vs -> length vs = length ws ->
  up_list_eq veq h us vs = Ok true -> up_list_eq veq h vs ws = Ok true -> up_list_eq veq h us ws = Ok true.
Proof.
  induction us as [|u us IH]; destruct vs as [|v vs], ws as [|w ws]; intros H1 H2; try discriminate; auto.
  injection H1 as H1. injection H2 as H2. cbn [up_list_eq].
  destruct (nth_error h u) as [[l|x]|]; destruct (nth_error h v) as [[r|y]|]; try discriminate; destruct (nth_error h w) as [[t|z]|]; try discriminate; try (intros A B; discriminate B).
  - destruct (Nat.eqb_spec l r) as [->|]; [|discriminate]. destruct (Nat.eqb_spec r t) as [->|]; [|discriminate]. eauto.
  - destruct (veq x y) as [[|]| |] eqn:E1; try discriminate. destruct (veq y z) as [[|]| |] eqn:E2; try discriminate.
    rewrite (H _ _ _ E1 E2). cbn [rbind]. eauto.
Qed.
Lemma fn_eq_trans d h : forall f g k, fn_eq d h f g = Ok true -> fn_eq d h g k = Ok true -> fn_eq d h f k = Ok true.
Proof.
  induction d as [|d IH]; [discriminate|]. intros [a|a us] [b|b vs] [c|c ws]; cbn [fn_eq]; try discriminate.
  - intros [= A] [= B]. now rewrite (function_eqb_trans _ _ _ A B).
  - destruct (function_eqb feqb false a b) eqn:A; [|discriminate]. destruct (function_eqb feqb false b c) eqn:B; [|discriminate].
    rewrite (function_eqb_trans _ _ _ A B). cbn [negb].
    destruct (Nat.eqb_spec (length us) (length vs)) as [L|]; [|discriminate]. destruct (Nat.eqb_spec (length vs) (length ws)) as [L'|]; [|discriminate].
    destruct (Nat.eqb_spec (length us) (length ws)); [|congruence]. cbn [negb]. apply up_list_trans; auto. now apply geqb_trans.
Qed.

Definition selfish (r : res bool) : Prop := r = Ok true \/ r = Panic.
Lemma geqb_self feq (Hf : forall f : mfn, function_free (mfn_function f) -> selfish (feq f f)) :
  forall v, all_free v -> selfish (geqb feq v v).
Proof.
  induction v as [| | | | | | | |l s mx IH| |a1 a2 IH1 IH2|f] using gvalue_rect'; intros Hn;
    cbn [geqb]; rewrite ?Bool.eqb_reflx, ?Z.eqb_refl, ?N.eqb_refl, ?seqb_refl; try (now left).
  - left. f_equal. apply feqb_spec. inversion Hn; subst. auto.
  - change (selfish (geqb feq (VArray l s mx) (VArray l s mx))). rewrite geqb_array, Nat.eqb_refl.
    inversion Hn as [? Hx|? ? ? Hd| |]; subst; [destruct Hx|]. clear Hn. induction IH as [|x t Hx _ IHt]; [now left|]. inversion Hd; subst.
    cbn [leq_]. destruct (Hx ltac:(assumption)) as [->| ->]; cbn [rbind]; [auto|now right].
  - inversion Hn as [? Hx| | |]; subst; [destruct Hx|]. destruct (IH1 ltac:(assumption)) as [->| ->]; cbn [rbind]; [auto|now right].
  - inversion Hn as [? Hx| | |]; subst; [destruct Hx|]. auto.
Qed.
Lemma fn_eq_self d h (Hh : captured_free h) : forall f, function_free (mfn_function f) -> selfish (fn_eq d h f f).
Proof.
  induction d as [|d IH]; [now right|]. intros [a|a us] Hf; cbn [mfn_function] in Hf; cbn [fn_eq]; rewrite (function_eqb_refl _ Hf); [now left|].
  rewrite Nat.eqb_refl. cbn [negb]. induction us as [|u us IHu]; [now left|]. cbn [up_list_eq].
  destruct (nth_error h u) as [[l|x]|] eqn:Hu; [now rewrite Nat.eqb_refl| |now right].
  apply nth_error_In, Hh in Hu. destruct (geqb_self _ IH x Hu) as [->| ->]; cbn [rbind]; [exact IHu|now right].
Qed.
Lemma equal_laws d h :
  (forall a b, v_equal (fn_eq d h) a b = v_equal (fn_eq d h) b a) /\
  (forall a b c, v_equal (fn_eq d h) a b = Ok (VBool true) -> v_equal (fn_eq d h) b c = Ok (VBool true) ->
     v_equal (fn_eq d h) a c = Ok (VBool true)) /\
  (captured_free h -> forall a, all_free a -> v_equal (fn_eq d h) a a = Ok (VBool true) \/ v_equal (fn_eq d h) a a = Panic).
Proof.
  unfold v_equal. split; [|split].
  - intros a b. now rewrite (geqb_sym _ (fn_eq_sym d h)).
  - intros a b c. destruct (geqb (fn_eq d h) a b) as [[|]| |] eqn:E1; try discriminate. destruct (geqb (fn_eq d h) b c) as [[|]| |] eqn:E2; try discriminate.
    now rewrite (geqb_trans _ (fn_eq_trans d h) _ _ _ E1 E2).
  - intros Hh a Ha. destruct (geqb_self _ (fn_eq_self d h Hh) a Ha) as [->| ->]; auto.
Qed.

(** ** A closure that holds itself *)
Definition loopy : rstring := str
"fn make() {
let g = 1
fn f() { g }
g = f
f
}
let a = make()
a == a".
Notation loopy_ast := (ast_of loopy).
Lemma loopy_parses : exists i, parse_code no_oracle 100 loopy 0 = PMatch loopy_ast i.
Proof. eexists. vm_compute. reflexivity. Qed.
Lemma loopy_compiles : compile Release loopy_ast = COk (script_of loopy_ast).
Proof. vm_compute. reflexivity. Qed.
Definition deep_host (d : nat) : host unit := mkHost (fun x => x) (fun x => x) (fun _ => 0%N) d no_oracle.

Lemma loop_add {D} m (hst : host D) k : forall j s s', loop m hst k s = ROut s' -> loop m hst (k + j) s = loop m hst j s'.
Proof.
  induction k as [|k IH]; intros j s s' H; cbn in H |- *; [now injection H as ->|].
  destruct (step m hst s); try discriminate. auto.
Qed.
Lemma never_ends h f u : function_eqb feqb false f f = true -> nth_error h u = Some (Closed (VFn (MClo f [u]))) ->
  forall d, fn_eq d h (MClo f [u]) (MClo f [u]) = Panic.
Proof.
  intros Hf Hu. induction d as [|d IH]; [reflexivity|]. cbn [fn_eq length Nat.eqb negb]. rewrite Hf. cbn [negb up_list_eq]. rewrite Hu.
  cbn [geqb]. rewrite IH. reflexivity.
Qed.
Lemma step_equal {D} m (hst : host D) s s1 s2 ip' a b : tick hst s = AOk tt s1 -> (chunk_len (cur_chunk s1) <=? ip s1) = false ->
  decode (ck_ops (cur_chunk s1)) (ip s1) = Ok (IBinary OEq, ip') -> pop_double (set_ip ip' s1) = AOk (a, b) s2 ->
  v_equal (fn_eq (h_depth hst) (v_heap s2)) a b = Panic -> step m hst s = SPanic.
Proof.
  intros H1 H2 H3 H4 H5. unfold step. rewrite H1, H2, H3. cbn [exec]. unfold abind. rewrite H4. cbn [binary_fn fst snd].
  unfold feq_at. rewrite H5. reflexivity.
Qed.
Lemma equal_panics h f u d : function_eqb feqb false f f = true -> nth_error h u = Some (Closed (VFn (MClo f [u]))) ->
  v_equal (fn_eq d h) (VFn (MClo f [u])) (VFn (MClo f [u])) = Panic.
Proof. intros Hf Hu. unfold v_equal. cbn [geqb]. now rewrite never_ends. Qed.
Definition loopy_state : vm unit := match run Release plain_host 16 (vm_of loopy_ast) with ROut s => s | _ => vm_of [] end.
Lemma loopy_reached d : run Release (deep_host d) 16 (vm_of loopy_ast) = ROut loopy_state.
Proof. vm_compute. reflexivity. Qed.
Definition loopy_ticked : vm unit := match tick plain_host loopy_state with AOk _ s => s | _ => loopy_state end.
Definition loopy_ip : nat := match decode (ck_ops (cur_chunk loopy_ticked)) (ip loopy_ticked) with Ok (_, k) => k | _ => 0 end.
Definition loopy_two : value * value * vm unit := match pop_double (set_ip loopy_ip loopy_ticked) with AOk p s => (p, s) | _ => (VNone, VNone, loopy_ticked) end.
Definition loopy_fn : function := match fst (fst loopy_two) with VFn (MClo f _) => f | _ => fn_blank [] end.
Definition loopy_cell : nat := match fst (fst loopy_two) with VFn (MClo _ [u]) => u | _ => 0 end.
Lemma loopy_tick d : tick (deep_host d) loopy_state = AOk tt loopy_ticked. Proof. vm_compute. reflexivity. Qed.
Lemma loopy_len : (chunk_len (cur_chunk loopy_ticked) <=? ip loopy_ticked) = false. Proof. vm_compute. reflexivity. Qed.
Lemma loopy_decode : decode (ck_ops (cur_chunk loopy_ticked)) (ip loopy_ticked) = Ok (IBinary OEq, loopy_ip). Proof. vm_compute. reflexivity. Qed.
Lemma loopy_pop : pop_double (set_ip loopy_ip loopy_ticked) = AOk (VFn (MClo loopy_fn [loopy_cell]), VFn (MClo loopy_fn [loopy_cell])) (snd loopy_two).
Proof. vm_compute. reflexivity. Qed.
Lemma loopy_heap : nth_error (v_heap (snd loopy_two)) loopy_cell = Some (Closed (VFn (MClo loopy_fn [loopy_cell]))).
Proof. vm_compute. reflexivity. Qed.
Lemma loopy_same : function_eqb feqb false loopy_fn loopy_fn = true. Proof. vm_compute. reflexivity. Qed.
Lemma loopy_step d : step Release (deep_host d) loopy_state = SPanic.
Proof.
  apply (step_equal Release (deep_host d) loopy_state loopy_ticked (snd loopy_two) loopy_ip _ _ (loopy_tick d) loopy_len loopy_decode loopy_pop).
  exact (equal_panics _ _ _ _ loopy_same loopy_heap).
Qed.
Lemma run_panics {D} m (hst : host D) k s s' : run m hst k s = ROut s' -> step m hst s' = SPanic -> run m hst (k + 1) s = RPanic.
Proof. unfold run. intros H1 H2. rewrite (loop_add _ _ _ _ _ _ H1). cbn [loop]. now rewrite H2. Qed.
Lemma loopy_crashes d : run Release (deep_host d) (16 + 1) (vm_of loopy_ast) = RPanic.
Proof. exact (run_panics _ _ _ _ _ (loopy_reached d) (loopy_step d)). Qed.
