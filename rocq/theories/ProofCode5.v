(** The compiler satisfies CodeRel.v: every syntax tree. *)
From Verif Require Import Base RleVec Pool Vecc Float NumText Bytecode Chunk Value Ast Arith VmOps
                          Compiler Vm Items CodeRel CodeSize SpecContainers ContainerHist ProofContainers
                          ProofValue ProofCompiler ProofCode ProofCode2 ProofCode3 ProofCode4.

Ltac Zify.zify_post_hook ::= Z.div_mod_to_equations.

Ltac reassoc := intros; repeat first
  [ reflexivity
  | rewrite bind_assoc
  | apply bind_cong; intros ].

Section Naming.
Context {P : naming}.

(** In statement position an expression is compiled and its value dropped. *)
Lemma cnode_stmt m p n sp c : is_expression n = true ->
  cnode m (KStmt p) n sp c = (cnode m KExpr n sp ;; fin (KStmt p) sp) c.
Proof.
  intros H. destruct n; try discriminate H; cbn [cnode].
  all: repeat first
   [ reflexivity
   | rewrite bind_assoc
   | apply bind_cong; intros
   | match goal with
     | |- context [if over255 ?l then _ else _] => destruct (over255 l)
     | |- context [match ?x with LNone => _ | _ => _ end] => destruct x
     | |- context [let (_, _) := ?x in _] => destruct x
     | |- context [match ?x with Some _ => _ | None => _ end] => destruct x
     | |- context [match ?x with VarDecl _ => _ | VarMulti _ => _ end] => destruct x
     | |- context [match ?x with Ok _ => _ | _ => _ end] => destruct x
     end ].
Qed.

(** ** Leaves *)
Lemma genE_fin sp : genE (fin KExpr sp) 0 (fun _ _ _ k => k = []).
Proof.
  apply gen_E. eapply gen_weaken; [apply (gen_ret tt)|lia|]. intros d a X L k L' (_ & -> & ->). split; auto.
Qed.
Lemma genE_ret {A} (a : A) : genE (ret a) 0 (fun r _ _ k => r = a /\ k = []).
Proof. apply gen_E. eapply gen_weaken; [apply (gen_ret a)|lia|]. intros d r X L k L' (-> & -> & ->). split; auto. Qed.
Lemma genE_op o i sp : enc i = [o] -> fits i -> (forall k, i <> ICreateClosure k) ->
  genE (write_op o sp) 0 (fun _ _ _ k => k = [It i]).
Proof. intros E F N. apply genE_item; auto. rewrite E. apply emits_op. Qed.
Lemma genE_op16 o mk v sp : wide o mk -> (v < 65536)%N ->
  genE (write_op_u16 o v sp) 0 (fun _ _ _ k => k = [It (mk v)]).
Proof. intros (A & B & C) H. apply genE_item; auto. rewrite A. apply emits_op_u16. Qed.
Lemma genE_op8 o i v sp : enc i = [o; v] -> fits i -> (forall k, i <> ICreateClosure k) ->
  genE (write_op_u8 o v sp) 0 (fun _ _ _ k => k = [It i]).
Proof. intros E F N. apply genE_item; auto. rewrite E. apply emits_op_u8. Qed.
Lemma genE_fail {A} er sp w J : genE (fail er sp : M A) w J.
Proof. intros c UN b a c' H. discriminate. Qed.
Lemma genE_crash {A} w J : genE (crash : M A) w J.
Proof. intros c UN b a c' H. discriminate. Qed.
Lemma gen_fail {A} er sp w J : gen (fail er sp : M A) w J.
Proof. intros c UN b a c' H. discriminate. Qed.
Lemma genE_constant v : fine v -> genE (add_constant v) 1
  (fun id X L k => k = [] /\ exists off, id = N.of_nat off /\ off <= u16max /\ nth_error (x_consts X) off = Some v).
Proof. intros Hv. apply gen_E. eapply gen_weaken; [apply gen_constant, Hv|lia|]. intros d a X L k L' (-> & -> & H). split; auto. Qed.
Lemma genE_symbol s : genE (add_global_symbol s) 1
  (fun id X L k => k = [] /\ exists off, id = N.of_nat off /\ off <= u16max /\ nth_error (x_globals X) off = Some s).
Proof. apply gen_E. eapply gen_weaken; [apply gen_symbol|lia|]. intros d a X L k L' (-> & -> & H). split; auto. Qed.
Lemma genE_get x sp : okname x -> genE (get_variable x sp) 1
  (fun _ X L k => exists r, resolves X L x r /\ k = [It (get_instr r)]).
Proof.
  intros Hok. apply gen_E. eapply gen_weaken; [apply (gen_variable _ _ _ get_instr _ _ Hok)|lia|].
  - intros []; reflexivity.
  - intros [] H; exact H.
  - intros [] ?; discriminate.
  - intros d a X L k L' (-> & r & H1 & ->). split; eauto.
Qed.
Lemma genE_set x sp : okname x -> genE (set_variable x sp) 1
  (fun _ X L k => exists r, resolves X L x r /\ k = [It (set_instr r)]).
Proof.
  intros Hok. apply gen_E. eapply gen_weaken; [apply (gen_variable _ _ _ set_instr _ _ Hok)|lia|].
  - intros []; reflexivity.
  - intros [] H; exact H.
  - intros [] ?; discriminate.
  - intros d a X L k L' (-> & r & H1 & ->). split; eauto.
Qed.

(** When the second part depends on a fact about the first result. *)
Lemma genE_bindQ {A B} (Q : A -> Prop) (x : M A) (k : A -> M B) w1 w2 J1 J2 :
  genE x w1 J1 -> (forall a X L c, J1 a X L c -> Q a) -> (forall a, Q a -> genE (k a) w2 (J2 a)) ->
  genE (bind x k) (w1 + w2) (fun b X L code => exists a c1 c2, code = c1 ++ c2 /\ J1 a X L c1 /\ J2 a b X L c2).
Proof.
  intros Hx HQ Hk c UN b r c' H I B0 Hw. mbi H as a c1 H1.
  destruct (Hx _ _ _ _ _ H1 I B0 ltac:(lia)) as (k1 & U1 & (I1 & B1 & E1) & O1 & F1 & L1 & G1).
  pose proof (HQ _ _ _ _ (G1 _ _ (self_fin _ _))) as Qa.
  destruct (Hk _ Qa _ _ _ _ _ H I1 B1 ltac:(lia)) as (k2 & U2 & (I2 & B2 & E2) & O2 & F2 & L2 & G2).
  exists (k1 ++ k2), U2. split; [|split; [|split; [|split]]].
  - eapply R_trans; [split; [exact I1|split; [exact B1|exact E1]]|split; [exact I2|split; auto]].
  - rewrite O2, O1, bytes_of_app, app_assoc. reflexivity.
  - apply Forall_app; auto.
  - congruence.
  - intros X L F. exists a, k1, k2. split; [reflexivity|].
    pose proof (fin_backE _ _ _ _ _ _ E2 L2 F) as Fb. auto.
Qed.
Definition u16ok (id : N) : Prop := (id < 65536)%N.

(** A table index right after its opcode. *)
Lemma literal_fine l : fine (literal_to_value l).
Proof. intros f H. destruct l; discriminate. Qed.
Lemma genE_load v sp : fine v -> genE (do off <- add_constant v; write_op_u16 op_LoadConst off sp) 1
  (fun _ X L k => exists off, nth_error (x_consts X) off = Some v /\ k = [It (ILoadConst (N.of_nat off))]).
Proof.
  intros Hv. assert (W : wide op_LoadConst ILoadConst) by (repeat split; cbn; auto; discriminate).
  eapply genE_weaken; [eapply (genE_bindQ u16ok); [apply genE_constant, Hv| |intros a Ha; apply (genE_op16 _ _ _ _ W Ha)]|lia|].
  - intros a X L c (_ & o & -> & Ho & _). unfold u16ok. lia.
  - intros r X L k (id & k1 & k2 & -> & (-> & o & -> & Ho & Hn) & ->). eauto.
Qed.
Lemma genE_global op0 mk x sp : wide op0 mk -> genE (do off <- add_global_symbol x; write_op_u16 op0 off sp) 1
  (fun _ X L k => exists g, nth_error (x_globals X) g = Some x /\ k = [It (mk (N.of_nat g))]).
Proof.
  intros W.
  eapply genE_weaken; [eapply (genE_bindQ u16ok); [apply genE_symbol| |intros a Ha; apply (genE_op16 _ _ _ _ W Ha)]|lia|].
  - intros a X L c (_ & o & -> & Ho & _). unfold u16ok. lia.
  - intros r X L k (id & k1 & k2 & -> & (-> & o & -> & Ho & Hn) & ->). eauto.
Qed.

(** An opcode, the index of a global name and an argument count. *)
Lemma genE_named o mk x n sp1 sp2 :
  (forall v, enc (mk v n) = o :: u16b v ++ [n]) -> (forall v, (v < 65536)%N -> fits (mk v n)) ->
  (forall v k, mk v n <> ICreateClosure k) ->
  genE (write_op o sp1 ;; do off <- add_global_symbol x; write_u16 off sp1 ;; write_u8 n sp2) 1
  (fun _ X L k => exists g, nth_error (x_globals X) g = Some x /\ k = [It (mk (N.of_nat g) n)]).
Proof.
  intros E F N.
  apply genE_same with (x := do off <- add_global_symbol x; write_op o sp1 ;; write_u16 off sp1 ;; write_u8 n sp2).
  { intros c. unfold bind, write_op, mod_level, get_level, set_level, add_global_symbol, bind. cbn.
    destruct (pool_add seqb (c_globals c) x). reflexivity. }
  eapply genE_weaken; [eapply (genE_bindQ u16ok); [apply genE_symbol| |intros a Ha; apply (genE_item _ (mk a n))]|lia|].
  - intros a X L c (_ & o' & -> & Ho & _). unfold u16ok. lia.
  - rewrite E. apply (emits_bind _ _ [o]); [apply emits_op|intros _]. apply emits_bind; [apply emits_u16|intros _; apply emits_u8].
  - apply F. exact Ha.
  - apply N.
  - intros r X L k (id & k1 & k2 & -> & (-> & o' & -> & Ho & Hn) & ->). eauto.
Qed.

Lemma genE_external off x sp : genE (add_external off x sp) 0 (fun _ _ _ k => k = []).
Proof.
  intros c UN b a c' H I B Hb. unfold add_external in H. destruct (existsb _ _); [discriminate|].
  injection H as _ <-. exists [], UN. rewrite app_nil_r. split; [split; [|split]|split; [|split; [|split]]]; auto.
  - destruct I; constructor; auto.
  - rewrite Nat.add_0_r. exact B.
  - constructor; cbn; auto using pre_refl, mm_refl; try apply grow_refl; apply F2_refl; auto using lvl_le_refl, pre_refl.
Qed.

(** Depending on whether we are at the top level. *)
Lemma gen_depth {A} (x y z : M A) w J1 J2 :
  (forall c, x c = if lv_depth (c_level c) =? 0 then y c else z c) -> gen y w J1 -> gen z w J2 ->
  gen x w (fun d a X L k L' => if d =? 0 then J1 d a X L k L' else J2 d a X L k L').
Proof.
  intros E Hy Hz c UN b a c' H I B Hb. rewrite E in H.
  destruct (lv_depth (c_level c) =? 0); [eapply Hy|eapply Hz]; eauto.
Qed.

(** A declared local is set where it lives. *)
Lemma slot_new x f L : slot_of ((x, f) :: L) x = Some (length L).
Proof. cbn. rewrite seqb_refl. reflexivity. Qed.
Lemma gen_declare x sp : okname x -> gen (define_local x true ;; set_variable x sp) 2
  (fun _ _ X L k L' => k = [It (ISetLocal (len L))] /\ exists f, L' = (x, f) :: L).
Proof.
  intros Hok. eapply gen_weaken; [apply gen_bind; [apply gen_define|intros; apply E_gen, genE_set; exact Hok]|lia|].
  intros d a X L k L' (_ & k1 & k2 & L1 & -> & (-> & f & ->) & (-> & r & Hr & ->)).
  split; [|eauto]. inversion Hr as [i Hs|? Hs|? Hs]; subst; rewrite slot_new in Hs; try discriminate.
  injection Hs as <-. reflexivity.
Qed.

Lemma gen_each (f : node -> span -> M unit) Q l :
  Forall (fun e : nodeS => genE (f (fst e) (snd e)) (weight (fst e)) (fun _ X L k => Q X L e k)) l ->
  genE (each_with f l) (weights l)
    (fun _ X L k => exists ks, Forall2 (Q X L) l ks /\ k = concat ks).
Proof.
  induction 1 as [|e t He Ht IH]; cbn [each_with weights fold_right].
  - eapply genE_weaken; [apply genE_ret|lia|]. intros a X L k (_ & ->). exists []. auto.
  - fold (weights t). eapply genE_weaken; [apply genE_bind; [apply He|intros; apply IH]|lia|].
    intros a X L k (_ & k1 & k2 & -> & H1 & ks & H2 & ->). exists (k1 :: ks). auto.
Qed.
Lemma weights_app a b : weights (a ++ b) = weights a + weights b.
Proof. induction a as [|x a IH]; [reflexivity|]. cbn. fold (weights (a ++ b)) (weights a). lia. Qed.
Lemma weights_rev l : weights (rev l) = weights l.
Proof.
  induction l as [|e l IH]; [reflexivity|]. cbn [rev]. rewrite weights_app, IH. cbn. fold (weights l). lia.
Qed.
Lemma each_rev_same f l c : each_with f (rev l) c = each_rev_with f l c.
Proof.
  assert (H : forall a b c, each_with f (a ++ b) c = (each_with f a ;; each_with f b) c).
  { clear. induction a as [|e a IH]; intros b c; [reflexivity|]. cbn [app each_with].
    rewrite bind_assoc. apply bind_cong. intros _ c1. apply IH. }
  revert c. induction l as [|e l IH]; intros c; [reflexivity|]. cbn [rev each_rev_with]. rewrite H.
  unfold bind. rewrite IH. destruct (each_rev_with f l c) as [[u|? ?|] c1]; auto.
  cbn [each_with]. unfold bind. destruct (f (fst e) (snd e) c1) as [[[]|? ?|] c2]; reflexivity.
Qed.

End Naming.

(** ** Every node *)
Section Main.
Context (m : mode) {P : naming}.
Definition exprP (n : node) : Prop :=
  forall sp, genE (cnode m KExpr n sp) (weight n) (fun _ X L k => code_expr m X L n k).
Definition stmtP (n : node) : Prop :=
  forall p sp, gen (cnode m (KStmt p) n sp) (weight n) (fun d _ X L k L' => code_stmt m X (d =? 0) L p n k L').
Definition nodeP (n : node) : Prop := exprP n /\ stmtP n.

Lemma expr_stmt n : is_expression n = true -> exprP n -> nodeP n.
Proof.
  intros Hn H. split; [exact H|]. intros p sp.
  eapply gen_same; [intros c; symmetry; apply cnode_stmt; exact Hn|].
  destruct p; cbn [fin].
  - eapply gen_weaken; [apply E_gen, genE_bind; [apply H|intros; apply (genE_op _ IPop); [reflexivity|exact Logic.I|discriminate]]|lia|].
    intros d a X L k L' (-> & _ & k1 & k2 & -> & H1 & ->). apply (cs_expr m X (d =? 0) L true); auto.
  - eapply gen_weaken; [apply E_gen, genE_bind; [apply H|intros; apply genE_ret]|lia|].
    intros d a X L k L' (-> & _ & k1 & k2 & -> & H1 & (_ & ->)). apply (cs_expr m X (d =? 0) L false); auto.
Qed.

Definition LP (l : list nodeS) : Prop := Forall (fun e => nodeP (fst e)) l.

Lemma F2_concat X L l ks : Forall2 (fun e k => code_expr m X L (fst e) k) l ks -> code_list m X L l (concat ks).
Proof. induction 1; cbn; constructor; auto. Qed.
Lemma gen_exprs l : LP l -> genE (each_with (cnode m KExpr) l) (weights l) (fun _ X L k => code_list m X L l k).
Proof.
  intros H. eapply genE_weaken; [apply (gen_each _ (fun X L e k => code_expr m X L (fst e) k))|lia|].
  - eapply Forall_impl; [|exact H]. intros e [He _]. apply He.
  - intros a X L k (ks & H1 & ->). apply F2_concat. exact H1.
Qed.
Lemma gen_exprs_rev l : LP l -> genE (each_rev_with (cnode m KExpr) l) (weights l) (fun _ X L k => code_list m X L (rev l) k).
Proof.
  intros H. eapply genE_same; [apply each_rev_same|]. rewrite <- weights_rev. apply gen_exprs.
  apply Forall_rev. exact H.
Qed.
Lemma gen_stmts l : LP l -> gen (stmnts_with (fun p => cnode m (KStmt p)) l) (weights l)
  (fun d _ X L k L' => code_stmts m X (d =? 0) L l k L').
Proof.
  induction 1 as [|e t [_ He] Ht IH]; cbn [stmnts_with weights fold_right].
  - eapply gen_weaken; [apply gen_ret|lia|]. intros d a X L k L' (_ & -> & ->). constructor.
  - fold (weights t). destruct t as [|e' t].
    + eapply gen_weaken; [apply gen_bind; [apply He|intros; apply gen_ret]|cbn; lia|].
      intros d a X L k L' (_ & k1 & k2 & L1 & -> & H1 & (_ & -> & ->)). rewrite app_nil_r. constructor. exact H1.
    + eapply gen_weaken; [apply gen_bind; [apply He|intros; apply IH]|lia|].
      intros d a X L k L' (_ & k1 & k2 & L1 & -> & H1 & H2). econstructor; eauto.
Qed.
Lemma gen_block l : LP l -> genE (block_with (fun p => cnode m (KStmt p)) l) (weights l) (fun _ X L k => code_block m X L l k).
Proof.
  intros H. eapply genE_weaken; [exact (gen_scope _ _ _ (fun r => r) (gen_stmts _ H))|lia|].
  intros a X L k (r & d & k0 & new & H1 & ->). constructor. exact H1.
Qed.
Lemma stmt_true X L p n k L' : code_stmt m X true L p n k L' -> L' = L.
Proof. intros H. inversion H; reflexivity. Qed.

Lemma gen_includes l : LP l -> gen (each_with (fun n sp => cnode m (KStmt true) n sp) l) (weights l)
  (fun d _ X L k L' => d = 0 -> L' = L /\ code_pops m X L l k).
Proof.
  induction 1 as [|e t [_ He] Ht IH]; cbn [each_with weights fold_right].
  - eapply gen_weaken; [apply gen_ret|lia|]. intros d a X L k L' (_ & -> & ->) _. split; constructor.
  - fold (weights t). eapply gen_weaken; [apply gen_bind; [apply He|intros; apply IH]|lia|].
    intros d a X L k L' (_ & k1 & k2 & L1 & -> & H1 & H2) ->. cbn [Nat.eqb] in H1. pose proof (stmt_true _ _ _ _ _ _ H1). subst L1.
    destruct (H2 eq_refl) as [-> H3]. split; auto. constructor; auto.
Qed.

Lemma gen_else o : match o with Some l => LP l | None => True end -> forall sp,
  genE (match o with
        | Some b => write_op_u16 op_PopMany 2 sp ;; block_with (fun p => cnode m (KStmt p)) b
        | None => write_op op_Pop sp
        end) (opt_weights o) (fun _ X L k => code_else m X L o k).
Proof.
  intros H sp. destruct o as [l|].
  - assert (W : wide op_PopMany IPopMany) by (repeat split; cbn; auto; discriminate).
    eapply genE_weaken; [apply genE_bind; [apply (genE_op16 _ _ _ _ W); reflexivity|intros; apply gen_block, H]|cbn; lia|].
    intros a X L k (_ & k1 & k2 & -> & -> & H2). cbn [app]. constructor. exact H2.
  - eapply genE_weaken; [apply (genE_op _ IPop); [reflexivity|exact Logic.I|discriminate]|lia|].
    intros a X L k ->. constructor.
Qed.
End Main.
