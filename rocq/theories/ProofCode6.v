(** The compiler satisfies CodeRel.v: the main theorem. *)
From Verif Require Import Base RleVec Pool Vecc Float NumText Bytecode Chunk Value Ast Arith VmOps
                          Compiler Vm Items CodeRel CodeSize SpecContainers ContainerHist ProofContainers
                          ProofValue ProofCompiler ProofCode ProofCode2 ProofCode3 ProofCode4 ProofCode5 SpecParse.

Ltac Zify.zify_post_hook ::= Z.div_mod_to_equations.

(** The names a program refers to or declares outside parameter lists. *)
Definition ident_ok {P : naming} (n : node) : Prop :=
  match n with
  | NIdentifier x => okname x
  | NAssignment x _ | NFunction x _ _ | NDeclaration (VarDecl x) _
  | NContext _ _ (Some (VarDecl x)) _ => okname (fst x)
  | _ => True
  end.
Definition named {P : naming} (n : node) : Prop := forall b, inside b n -> ident_ok b.

Section Main.
Context (m : mode) {P : naming}.

Lemma named_self n : named n -> ident_ok n.
Proof. intros H. apply H. constructor. Qed.
Lemma named_child n e : named n -> In e (children n) -> named (fst e).
Proof. intros H Hi b Hb. destruct e as [c sp]. apply H. eapply inside_child; eauto. Qed.
Lemma named_list (Q : node -> Prop) n (l : list nodeS) : named n -> (forall e, In e l -> In e (children n)) ->
  Forall (fun e => named (fst e) -> Q (fst e)) l -> Forall (fun e => Q (fst e)) l.
Proof.
  intros H Hi Hl. rewrite Forall_forall in *. intros e He. apply Hl; [exact He|].
  eapply named_child; eauto.
Qed.
Lemma named_opt (Q : node -> Prop) n (o : option (list nodeS)) : named n ->
  (forall l, o = Some l -> forall e, In e l -> In e (children n)) ->
  match o with Some l => Forall (fun e : nodeS => named (fst e) -> Q (fst e)) l | None => True end ->
  match o with Some l => Forall (fun e : nodeS => Q (fst e)) l | None => True end.
Proof. intros H Hi Hl. destruct o as [l|]; auto. eapply named_list; eauto. Qed.
Lemma named_cases (Q : node -> Prop) n (cs : list (nodeS * list nodeS)) : named n ->
  (forall e, In e (flat_map (fun c => fst c :: snd c) cs) -> In e (children n)) ->
  Forall (fun cb => (named (fst (fst cb)) -> Q (fst (fst cb))) /\
                    Forall (fun e : nodeS => named (fst e) -> Q (fst e)) (snd cb)) cs ->
  Forall (fun cb => Q (fst (fst cb)) /\ Forall (fun e : nodeS => Q (fst e)) (snd cb)) cs.
Proof.
  intros H Hi Hl. induction Hl as [|[e b] cs [Ha Hb] Hc IH]; [constructor|]. cbn [flat_map fst snd] in *.
  constructor.
  - cbn [fst snd]. split.
    + apply Ha. eapply named_child; [exact H|]. apply Hi. left. reflexivity.
    + eapply named_list; [exact H| |exact Hb]. intros x Hx. apply Hi. right. apply in_or_app. auto.
  - apply IH. intros x Hx. apply Hi. right. apply in_or_app. auto.
Qed.
Notation nodeP := (nodeP m).
Notation LP := (LP m).

Lemma wide_popmany : wide op_PopMany IPopMany.
Proof. repeat split; cbn; auto; discriminate. Qed.
Lemma wide_define : wide op_DefineGlobal IDefineGlobal.
Proof. repeat split; cbn; auto; discriminate. Qed.
Lemma wide_defaulted : wide op_DefineGlobalDefaulted IDefineGlobalDefaulted.
Proof. repeat split; cbn; auto; discriminate. Qed.

(** One case of a switch: its code with an open jump at the end. *)
Lemma gen_case e body sp c0 UN b j c' : nodeP (fst e) -> LP body ->
  (cnode m KExpr (fst e) (snd e) ;;
   do else_jump <- write_jump op_JumpIfNotEq sp;
   write_op_u16 op_PopMany 2 sp ;;
   block_with (fun p => cnode m (KStmt p)) body ;;
   do end_jump <- write_jump op_JumpForward sp;
   patch_jump else_jump sp ;; ret end_jump) c0 = (COk j, c') ->
  inv c0 UN -> bnd b c0 -> b + (weight (fst e) + weights body) <= u16max ->
  exists s UN', R b (weight (fst e) + weights body) c0 UN c' UN' /\
    opsof c' = opsof c0 ++ bytes_of (s ++ [jump0]) /\ Forall item_fits s /\
    length (loc c') = length (loc c0) /\ j = length (opsof c0) + size s + 1 /\
    forall X L, fin_ok X L c' UN' -> exists ce cb, code_expr m X L (fst e) ce /\ code_block m X L body cb /\
      s = ce ++ It (IJumpIfNotEq (szN (It (IPopMany 2) :: cb ++ [jump0]))) :: It (IPopMany 2) :: cb.
Proof.
  intros [He _] Hb H I Bn Hw.
  mbi H as u1 c1 H1. destruct u1.
  destruct (He _ _ _ _ _ _ H1 I Bn ltac:(lia)) as (ce & U1 & (I1 & B1 & X1) & O1 & F1 & L1 & G1).
  mbi H as ej c2 H2. destruct (write_jump_inv _ _ _ _ _ H2) as (E2 & O2 & ->).
  pose proof (R_ext0 _ _ _ _ I1 B1 E2) as (I2 & B2 & X2). rewrite Nat.add_0_r in B2.
  assert (Hblk : genE (write_op_u16 op_PopMany 2 sp ;; block_with (fun p => cnode m (KStmt p)) body) (weights body)
            (fun _ X L k => exists cb, code_block m X L body cb /\ k = It (IPopMany 2) :: cb)).
  { eapply genE_weaken; [apply genE_bind; [apply (genE_op16 _ _ _ _ wide_popmany); reflexivity|intros; apply gen_block, Hb]|lia|].
    intros a X L k (_ & k1 & k2 & -> & -> & H3). exists k2. auto. }
  mbi H as u3 c3 H3. mbi H as u4 c4 H4.
  assert (H34 : (write_op_u16 op_PopMany 2 sp ;; block_with (fun p => cnode m (KStmt p)) body) c2 = (COk u4, c4))
    by (unfold bind; rewrite H3; exact H4).
  destruct (Hblk _ _ _ _ _ H34 I2 B2 ltac:(lia)) as (kb & U4 & (I4 & B4 & X4) & O4 & F4 & L4 & G4).
  mbi H as dj c5 H5. destruct (write_jump_inv _ _ _ _ _ H5) as (E5 & O5 & ->).
  mbi H as u6 c6 H6. apply ret_inv in H. destruct H as [<- <-].
  assert (O5' : opsof c5 = (opsof c0 ++ bytes_of ce ++ [op_JumpIfNotEq]) ++ le_lo 0 :: le_hi 0 ::
                           (bytes_of kb ++ op_JumpForward :: u16b 0)).
  { rewrite O5, O4, O2, O1, <- !app_assoc. reflexivity. }
  assert (Hj : length (opsof c1) + 1 = length (opsof c0 ++ bytes_of ce ++ [op_JumpIfNotEq]))
    by (rewrite O1, !app_length; cbn; lia).
  rewrite Hj in H6. destruct (patch_jump_inv _ _ _ _ _ _ _ _ H6 O5') as (E6 & S6 & O6).
  pose proof (R_ext0 _ _ _ _ I4 B4 (ext0_trans _ _ _ E5 E6)) as (I6 & B6 & X6). rewrite Nat.add_0_r in B6.
  assert (Ev : N.of_nat (length (bytes_of kb ++ op_JumpForward :: u16b 0)) = szN (kb ++ [jump0])).
  { unfold szN. rewrite size_app, app_length. unfold size. cbn. reflexivity. }
  assert (L6 : length (loc c6) = length (loc c4)) by (destruct E5 as [? ->], E6 as [? ->]; reflexivity).
  assert (L2 : length (loc c2) = length (loc c1)) by (destruct E2 as [? ->]; reflexivity).
  exists (ce ++ It (IJumpIfNotEq (szN (kb ++ [jump0]))) :: kb), U4.
  split; [|split; [|split; [|split; [|split]]]].
  - split; [exact I6|]. split; [eapply bnd_mono; eauto; lia|].
    eapply ext_trans; [exact X1|]. eapply ext_trans; [exact X2|]. eapply ext_trans; eauto.
  - rewrite O6, !bytes_of_app.
    rewrite (wide_bytes op_JumpIfNotEq IJumpIfNotEq) by apply wide_ne. rewrite <- Ev.
    cbn [bytes_of flat_map item_bytes jump0 enc]. rewrite app_nil_r.
    repeat (rewrite <- !app_assoc; cbn [app]). reflexivity.
  - apply Forall_app; split; auto. constructor; auto. eapply wide_fits; [apply wide_ne|]. rewrite <- Ev. exact S6.
  - congruence.
  - rewrite O4, O2, O1, !app_length, size_app, size_cons. rewrite (wide_size op_JumpIfNotEq IJumpIfNotEq) by apply wide_ne. unfold size. cbn [length u16b]. lia.
  - intros X L F. pose proof (fin_backE _ _ _ _ _ _ X6 L6 F) as F4'.
    destruct (G4 _ _ F4') as (cb & Hcb & ->).
    pose proof (fin_backE _ _ _ _ _ _ X4 L4 F4') as F2'.
    pose proof (fin_backE _ _ _ _ _ _ X2 L2 F2') as F1'.
    exists ce, cb. auto.
Qed.

Lemma gen_cases cs : Forall (fun cb => nodeP (fst (fst cb)) /\ LP (snd cb)) cs ->
  forall c0 UN b js c', cases_with (cnode m) cs c0 = (COk js, c') ->
  inv c0 UN -> bnd b c0 -> b + case_weights cs <= u16max ->
  exists segs UN', R b (case_weights cs) c0 UN c' UN' /\
    opsof c' = opsof c0 ++ bytes_of (open_items segs) /\ Forall (Forall item_fits) segs /\
    length (loc c') = length (loc c0) /\ js = js_at (length (opsof c0)) segs /\
    forall X L, fin_ok X L c' UN' -> forall d co, code_else m X L d co ->
      code_cases m X L cs d (case_items segs co).
Proof.
  induction 1 as [|[e body] t [He Hb] Ht IH]; intros c0 UN b js c' H I Bn Hw;
    cbn [cases_with case_weights fold_right fst snd] in *.
  - apply ret_inv in H. destruct H as [<- <-]. exists [], UN. cbn [open_items flat_map bytes_of]. rewrite app_nil_r.
    split; [apply R_ext0; auto using ext0_refl|]. split; auto. split; [constructor|]. split; auto. split; auto.
    intros X L F d co Hd. constructor. exact Hd.
  - fold (case_weights t) in *.
    assert (H' : (do j <- (cnode m KExpr (fst e) (snd e) ;;
       do else_jump <- write_jump op_JumpIfNotEq (snd e);
       write_op_u16 op_PopMany 2 (snd e) ;;
       block_with (fun p => cnode m (KStmt p)) body ;;
       do end_jump <- write_jump op_JumpForward (snd e);
       patch_jump else_jump (snd e) ;; ret end_jump);
       do js <- cases_with (cnode m) t; ret (j :: js)) c0 = (COk js, c')).
    { rewrite <- H. reassoc. }
    clear H. mbi H' as j c1 H1.
    destruct (gen_case _ _ _ _ _ _ _ _ He Hb H1 I Bn ltac:(lia)) as (s & U1 & (I1 & B1 & X1) & O1 & F1 & L1 & -> & G1).
    mbi H' as js1 c2 H2. apply ret_inv in H'. destruct H' as [<- <-].
    destruct (IH _ _ _ _ _ H2 I1 B1 ltac:(lia)) as (segs & U2 & (I2 & B2 & X2) & O2 & F2 & L2 & -> & G2).
    exists (s :: segs), U2. split; [|split; [|split; [|split; [|split]]]].
    + split; [exact I2|]. split; [eapply bnd_mono; eauto; lia|]. eapply ext_trans; eauto.
    + rewrite O2, O1, <- app_assoc. cbn [open_items flat_map]. fold (open_items segs). rewrite !bytes_of_app. reflexivity.
    + constructor; auto.
    + congruence.
    + cbn [js_at]. f_equal. f_equal. rewrite O1, app_length. fold (size (s ++ [jump0])). rewrite size_app.
      unfold jump0. rewrite size_cons, (wide_size op_JumpForward IJumpForward), size_nil by apply wide_fw. lia.
    + intros X L F d co Hd. pose proof (fin_backE _ _ _ _ _ _ X2 L2 F) as F1'.
      destruct (G1 _ _ F1') as (ce & cb & Hce & Hcb & ->). cbn [case_items].
      pose proof (cc_cons m X L e body t d ce cb (case_items segs co) Hce Hcb (G2 _ _ F d co Hd)) as K.
      replace (szN (It (IPopMany 2) :: cb ++ [It (IJumpForward (szN (case_items segs co)))]))
        with (szN (It (IPopMany 2) :: cb ++ [jump0])) in K.
      * rewrite <- app_assoc. cbn [app]. exact K.
      * unfold szN. rewrite !size_cons, !size_app, !size_cons. reflexivity.
Qed.

Lemma gen_switch cs d sp : Forall (fun cb => nodeP (fst (fst cb)) /\ LP (snd cb)) cs ->
  match d with Some l => LP l | None => True end ->
  genE (do jumps <- cases_with (cnode m) cs;
        match d with
        | Some b => write_op_u16 op_PopMany 2 sp ;; block_with (fun p => cnode m (KStmt p)) b
        | None => write_op op_Pop sp
        end ;; patch_all jumps sp) (case_weights cs + opt_weights d)
       (fun _ X L k => code_cases m X L cs d k).
Proof.
  intros Hcs Hd c0 UN b [] c' H I Bn Hw.
  mbi H as js c1 H1.
  destruct (gen_cases _ Hcs _ _ _ _ _ H1 I Bn ltac:(lia)) as (segs & U1 & (I1 & B1 & X1) & O1 & F1 & L1 & -> & G1).
  mbi H as u2 c2 H2.
  destruct (gen_else m d Hd sp _ _ _ _ _ H2 I1 B1 ltac:(lia)) as (co & U2 & (I2 & B2 & X2) & O2 & F2 & L2 & G2).
  destruct (patch_all_inv segs co sp _ _ _ _ H) as (E3 & O3 & F3); auto.
  { rewrite O2, O1, bytes_of_app, <- app_assoc. reflexivity. }
  pose proof (R_ext0 _ _ _ _ I2 B2 E3) as (I3 & B3 & X3).
  assert (L3 : length (loc c') = length (loc c2)) by (destruct E3 as [? ->]; reflexivity).
  exists (case_items segs co), U2. split; [|split; [|split; [|split]]]; auto.
  - split; [exact I3|]. split; [eapply bnd_mono; eauto; lia|]. eapply ext_trans; [exact X1|]. eapply ext_trans; eauto.
  - congruence.
  - intros X L F. pose proof (fin_backE _ _ _ _ _ _ X3 L3 F) as F2'.
    pose proof (fin_backE _ _ _ _ _ _ X2 L2 F2') as F1'. auto.
Qed.

Ltac op1 := apply genE_op; [reflexivity|exact Logic.I|discriminate].
Ltac bnds := repeat match goal with
  | H : exists _, _ |- _ => destruct H
  | H : _ /\ _ |- _ => destruct H
  end; subst.
(** Compose a chain of pieces. *)
Ltac chain := repeat first [ apply genE_bind; [|intros ?] ].
Ltac wt := match goal with |- _ <= weight ?n => rewrite (weight_eq n) | _ => idtac end; cbn [weight1 fst snd opt_weights var_weight length]; lia.

(** Declarations by unpacking. *)
Lemma gen_unpack_globals xs : gen (define_globals xs) (length xs)
  (fun _ _ X L k L' => L' = L /\ exists gs, Forall2 (fun x g => nth_error (x_globals X) g = Some x) (map fst xs) gs /\
                       k = map (fun g => It (IDefineGlobal (N.of_nat g))) gs).
Proof.
  induction xs as [|[x sp] xs IH]; cbn [define_globals length].
  - eapply gen_weaken; [apply gen_ret|lia|]. intros d a X L k L' (_ & -> & ->). split; auto. exists []. split; constructor.
  - eapply gen_same with (x := (do off <- add_global_symbol x; write_op_u16 op_DefineGlobal off sp) ;; define_globals xs).
    { reassoc. }
    eapply gen_weaken; [apply gen_bind; [apply E_gen, (genE_global _ _ _ _ wide_define)|intros; apply IH]|lia|].
    intros d a X L k L' (_ & k1 & k2 & L1 & -> & (-> & g & Hg & ->) & (-> & gs & Hgs & ->)).
    split; auto. exists (g :: gs). split; [constructor; auto|reflexivity].
Qed.
Lemma fst_rev {A B} (l : list (A * B)) : map fst (rev l) = rev (map fst l).
Proof. apply map_rev. Qed.
Lemma over_ok {A} (l : list A) : over255 l = false -> length l <= 255.
Proof. intros H. apply Nat.ltb_ge in H. exact H. Qed.
Lemma gen_unpack_locals (xs : list (spanned rstring)) sp : length xs <= 255 ->
  gen (write_op_u8 op_Unpack (len8 xs) sp ;; define_locals (map fst (rev xs))) (length xs)
  (fun _ _ X L k L' => k = [It (IUnpack (len xs))] /\ exists new, map fst new = map fst xs /\ L' = new ++ L).
Proof.
  intros Hx. eapply gen_weaken; [apply gen_bind; [apply E_gen, (genE_op8 _ (IUnpack (len8 xs)))|intros; apply gen_defines]| |].
  - reflexivity. - unfold len8; cbn; lia. - discriminate.
  - rewrite map_length, rev_length. lia.
  - intros d a X L k L' (_ & k1 & k2 & L1 & -> & (-> & ->) & (-> & new & -> & E)). split; [reflexivity|].
    exists new. split; auto. rewrite E, map_rev, rev_involutive. reflexivity.
Qed.

Lemma genE_E {A} (x : M A) w (J J' : ejudge A) : genE x w J -> (forall a X L k, J a X L k -> J' a X L k) -> genE x w J'.
Proof. intros H HJ. eapply genE_weaken; eauto. Qed.

(** The body of a scope that starts with the declaration of its variables. *)
Lemma gen_scope_body (decl : M unit) w JD body sp : LP body -> gen decl w JD ->
  genE (enter_scope ;; do r <- (decl ;; stmnts_with (fun p => cnode m (KStmt p)) body); exit_scope ((fun _ => sp) r))
    (w + weights body)
    (fun _ X L k => exists d kd L1 kb new, JD (S d) tt X L kd L1 /\ code_stmts m X false L1 body kb (new ++ L) /\
        k = kd ++ kb ++ exit_code (map snd new)).
Proof.
  intros Hb Hd. eapply genE_E.
  - eapply (gen_scope _ _ _ (fun _ => sp)). apply gen_bind; [exact Hd|intros; apply gen_stmts, Hb].
  - intros a X L k (r & d & k0 & new & (u & k1 & k2 & L1 & -> & H1 & H2) & ->). destruct u.
    exists d, k1, L1, k2, new. rewrite <- app_assoc. auto.
Qed.

(** The loop part of [for]. *)
Lemma gen_for (decl : M unit) wd JD it body spa sp1 sp2 sp3 sp :
  nodeP (fst it) -> LP body -> gen decl wd JD ->
  genE (enter_scope ;; reserve_temps 2 ;; write_op op_NewLoopCtx spa ;;
        cnode m KExpr (fst it) (snd it) ;;
        enter_scope ;; write_op op_LoadNone spa ;;
        do start <- code_len; do exit <- write_jump op_IterNext sp1;
        decl ;; stmnts_with (fun p => cnode m (KStmt p)) body ;;
        exit_scope sp ;; write_jump_backward start sp2 ;; patch_jump exit sp3 ;; exit_scope sp)
       (2 + weight (fst it) + (wd + weights body))
       (fun _ X L k => exists b1 b2 ci d kd L1 kb new,
          code_expr m X (temps L b1 b2) (fst it) ci /\
          JD (S d) tt X (temps L b1 b2) kd L1 /\
          code_stmts m X false L1 body kb (new ++ temps L b1 b2) /\
          k = for_code ci kd kb new b1 b2).
Proof.
  intros [Hi _] Hb Hd.
  apply genE_same with (x := enter_scope ;; do r <- (reserve_temps 2 ;; write_op op_NewLoopCtx spa ;;
     cnode m KExpr (fst it) (snd it) ;; write_op op_LoadNone spa ;;
     do start <- code_len; ret tt ;; do exit <- write_jump op_IterNext sp1;
     (enter_scope ;; do r <- (decl ;; stmnts_with (fun p => cnode m (KStmt p)) body); exit_scope ((fun _ => sp) r)) ;;
     write_jump_backward start sp2 ;; patch_jump exit sp3 ;; ret tt); exit_scope ((fun _ => sp) r)).
  { intros c. rewrite bind_assoc || idtac.
    apply bind_cong; intros _ c1. rewrite !bind_assoc. apply bind_cong; intros _ c2. rewrite !bind_assoc.
    apply bind_cong; intros _ c3. rewrite !bind_assoc. apply bind_cong; intros _ c4. rewrite !bind_assoc.
    match goal with |- ?l = ?r => 
      transitivity ((do start <- code_len; do exit <- write_jump op_IterNext sp1;
        enter_scope ;; decl ;; stmnts_with (fun p => cnode m (KStmt p)) body ;; exit_scope sp ;;
        write_jump_backward start sp2 ;; patch_jump exit sp3 ;; exit_scope sp)
        (snd (write_op op_LoadNone spa c4))) end.
    - unfold bind at 1. change (write_op op_LoadNone spa c4) with (@COk unit tt, snd (write_op op_LoadNone spa c4)).
      cbv beta iota. rewrite ?bind_assoc. apply bind_cong; intros st c5. rewrite ?bind_assoc.
      unfold bind at 1. unfold ret at 1. cbv beta iota. reassoc.
    - reflexivity. }
  eapply genE_weaken.
  - eapply (gen_scope _ _ _ (fun _ => sp)).
    apply gen_bind; [apply gen_temps|intros ?].
    apply gen_bind; [apply E_gen; apply (genE_op _ INewLoopCtx); [reflexivity|exact Logic.I|discriminate]|intros ?].
    apply gen_bind; [apply E_gen; apply Hi|intros ?].
    apply gen_bind; [apply E_gen; apply (genE_op _ ILoadNone); [reflexivity|exact Logic.I|discriminate]|intros ?].
    apply E_gen. apply (gen_loop _ _ _ _ _ _ _ _ _ _ _ _ _ _ wide_it (genE_ret tt) (gen_scope_body _ _ _ _ _ Hb Hd) (genE_ret tt)).
  - lia.
  - intros a X L k (r & d & k0 & new & HH & ->).
    destruct HH as (? & k1 & k2 & L1 & -> & (-> & b1 & b2 & ->) & HH).
    destruct HH as (? & k3 & k4 & L2 & -> & (-> & ->) & HH).
    destruct HH as (? & k5 & k6 & L3 & -> & (-> & Hci) & HH).
    destruct HH as (? & k7 & k8 & L4 & -> & (-> & ->) & HH).
    destruct HH as (HL & ka & kb & kc & (_ & ->) & (dd & kd & L1 & kb' & new' & HD & HS & ->) & (_ & ->) & ->).
    assert (En : new = [(temp_name (S (length L)), b2); (temp_name (length L), b1)]).
    { apply (app_inv_tail L). exact HL. }
    subst new. exists b1, b2, k5, dd, kd, L1, kb', new'. split; auto. split; auto. split; auto.
    unfold for_code. cbn [app map snd]. rewrite <- !app_assoc. cbn [app]. rewrite <- !app_assoc. reflexivity.
Qed.

Ltac one := first [ apply genE_fin | apply genE_ret | (apply genE_get; assumption) | (apply genE_set; assumption)
  | match goal with H : nodeP ?n |- genE (cnode m KExpr ?n _) _ _ => apply (proj1 H) end
  | apply gen_exprs; assumption | apply gen_exprs_rev; assumption | apply gen_block; assumption
  | apply gen_else; assumption | (apply genE_load; first [apply literal_fine | intros ? ?; discriminate]) ].
Ltac opw i := apply (genE_op _ i); [reflexivity|exact Logic.I|discriminate].
Ltac chainR := first [one | match goal with |- genE (bind _ _) _ _ => apply genE_bind; [try one|intros ?; chainR] end | idtac].
Ltac goE := eapply genE_weaken; [chainR| |].
Ltac un := intros; cbv beta in *; repeat match goal with
  | H : exists _, _ |- _ => destruct H
  | H : _ /\ _ |- _ => destruct H
  end; subst; rewrite ?app_nil_r; repeat (rewrite <- ?app_assoc; cbn [app]).

Lemma gen_var v sp sp2 : (forall x, v = Some (VarDecl x) -> okname (fst x)) -> forall x, v = x -> gen
  match v with
  | Some (VarDecl (vn, vsp)) => define_local vn true ;; set_variable vn vsp
  | Some (VarMulti names) =>
      if over255 names then fail ETooMuchToUnpack sp2 else
      write_op_u8 op_Unpack (len8 names) sp ;; define_locals (map fst (rev names))
  | None => write_op op_Pop sp
  end (match v with Some v => var_weight v | None => 0 end)
  (fun _ _ X L k L' => code_var L v k L').
Proof.
  intros Hok _ _. destruct v as [[[vn vsp]|names]|].
  - eapply gen_weaken; [apply gen_declare; apply (Hok _ eq_refl)|cbn; lia|]. intros d a X L k L' (-> & f & ->).
    apply (cv_one L (vn, vsp)).
  - destruct (over255 names) eqn:E; [apply gen_fail|]. apply over_ok in E.
    eapply gen_weaken; [apply gen_unpack_locals; exact E|cbn; lia|]. intros d a X L k L' (-> & new & Hn & ->).
    constructor; auto.
  - eapply gen_weaken; [apply E_gen; opw IPop|lia|]. intros d a X L k L' (-> & ->). constructor.
Qed.

Lemma genE_binary o sp : genE (match binary_opcode o with Some c => write_op c sp | None => crash end) 0
  (fun _ _ _ k => binary_opcode o <> None /\ k = [It (IBinary o)]).
Proof.
  destruct (binary_opcode o) as [c|] eqn:E; [|apply genE_crash].
  eapply genE_E; [apply (genE_op _ (IBinary o)); [|destruct o; try discriminate; exact Logic.I|discriminate]
                 |intros ? ? ? ? ->; split; [discriminate|reflexivity]].
  destruct o; try discriminate; injection E as <-; reflexivity.
Qed.
Lemma genE_unary o sp : genE (match unary_opcode o with Some c => write_op c sp | None => crash end) 0
  (fun _ _ _ k => unary_opcode o <> None /\ k = [It (IUnary o)]).
Proof.
  destruct (unary_opcode o) as [c|] eqn:E; [|apply genE_crash].
  eapply genE_E; [apply (genE_op _ (IUnary o)); [|destruct o; try discriminate; exact Logic.I|discriminate]
                 |intros ? ? ? ? ->; split; [discriminate|reflexivity]].
  destruct o; try discriminate; injection E as <-; reflexivity.
Qed.

Lemma is_global_run {A} (y z : M A) c :
  (do g <- is_global; if (g : bool) then y else z) c = if lv_depth (c_level c) =? 0 then y c else z c.
Proof. unfold is_global, bind, get_level, ret. destruct (lv_depth (c_level c) =? 0); reflexivity. Qed.

Ltac inch := cbn [children opt_list]; intros; subst; cbn [opt_list];
  repeat (rewrite ?in_app_iff; cbn [In]); auto 10.
Ltac prep HN := repeat match goal with
  | H : named (fst ?a) -> nodeP (fst ?a) |- _ =>
      specialize (H (named_child _ a HN ltac:(inch)))
  | H : Forall (fun e : nodeS => named (fst e) -> nodeP (fst e)) ?l |- _ =>
      apply (named_list nodeP _ l HN ltac:(inch)) in H
  | H : Forall (fun cb : nodeS * list nodeS => (named (fst (fst cb)) -> _) /\ _) ?l |- _ =>
      apply (named_cases nodeP _ l HN ltac:(inch)) in H
  | H : match ?o with Some _ => Forall _ _ | None => True end |- _ =>
      apply (named_opt nodeP _ o HN ltac:(inch)) in H
  end.

Lemma main_lemma n : named n -> nodeP n.
Proof.
  induction n using node_ind'; intros HN; prep HN; pose proof (named_self _ HN) as HS; cbn [ident_ok] in HS.
  all: try (apply expr_stmt; [reflexivity|intros sp; cbn [cnode]]).
  - (* literal *)
    destruct l; cbn [cnode].
    1: { goE; [opw ILoadNone|cbn; lia|]. un. constructor. }
    all: (eapply genE_same with (x := (do off <- add_constant _; write_op_u16 op_LoadConst off sp) ;; fin KExpr sp);
      [reassoc|]; goE; [cbn; lia|]; un; apply ce_literal; [discriminate|assumption]).
  - (* array *)
    destruct (over255 l) eqn:E; [apply genE_fail|]. apply over_ok in E.
    goE; [apply (genE_op8 _ (ICreateArray (len8 l))); [reflexivity|unfold len8; cbn; lia|discriminate]|wt|].
    un. apply ce_array; auto.
  - goE; [opw ICreatePair|wt|]. un. constructor; auto.
  - goE; [opw ICreateRange|wt|]. un. constructor; auto.
  - goE; [wt|]. un. constructor; auto.
  - (* declaration *)
    split; [intros sp; apply genE_fail|]. intros p sp. cbn [cnode]. destruct v as [[x vsp]|names].
    + eapply gen_weaken; [apply gen_bind; [apply E_gen, (proj1 H)|intros ?];
        eapply (gen_depth _ (do off <- add_global_symbol x; write_op_u16 op_DefineGlobal off vsp) (define_local x true ;; set_variable x vsp) 2)|wt|].
      * intros c. apply is_global_run.
      * apply E_gen. eapply genE_weaken; [apply (genE_global _ _ _ _ wide_define)|lia|]. intros ? ? ? ? K; exact K.
      * apply gen_declare; exact HS.
      * intros d9 a9 X L k L' (? & k1 & k2 & L1 & -> & (-> & H1) & H2). destruct (d9 =? 0).
        -- destruct H2 as (-> & g & Hg & ->). apply (cs_let_global m X L p (x, vsp)); auto.
        -- destruct H2 as (-> & f & ->). apply (cs_let m X L p (x, vsp)); auto.
    + eapply gen_weaken with (w := weight (fst e) + length names); [apply gen_bind; [apply E_gen, (proj1 H)|intros ?]|wt|].
      * destruct (over255 names) eqn:E; [apply gen_fail|]. apply over_ok in E.
        eapply (gen_depth _ (write_op_u8 op_Unpack (len8 names) sp ;; define_globals names)
                            (write_op_u8 op_Unpack (len8 names) sp ;; define_locals (map fst (rev names))) (length names)).
        -- intros c. unfold bind. unfold write_op_u8, is_global, write_op, write_u8, mod_level, bind, get_level, set_level, ret. cbn.
           destruct (lv_depth (c_level c) =? 0); reflexivity.
        -- eapply gen_weaken; [apply gen_bind; [apply E_gen, (genE_op8 _ (IUnpack (len8 names)));
             [reflexivity|unfold len8; cbn; lia|discriminate]|intros; apply gen_unpack_globals]|lia|].
           intros d9 a9 X L k L' K. exact (conj E K).
        -- eapply gen_weaken; [apply gen_unpack_locals; exact E|lia|]. intros d9 a9 X L k L' K. exact (conj E K).
      * intros d9 a9 X L k L' (? & k1 & k2 & L1 & -> & (-> & H1) & H2). destruct (d9 =? 0).
        -- destruct H2 as (E & ? & k3 & k4 & L2 & -> & (-> & ->) & (-> & gs & Hgs & ->)).
           apply cs_multi_global; auto.
        -- destruct H2 as (E & -> & new & Hn & ->). apply cs_multi; auto.
  - (* external *)
    split; [intros sp; destruct x; apply genE_fail|]. intros p sp. destruct x as [x vsp]. cbn [cnode].
    eapply gen_weaken; [apply gen_bind; [apply E_gen, (proj1 H)|intros ?];
        eapply (gen_depth _ (do off <- add_global_symbol x; add_external off x vsp ;; write_op_u16 op_DefineGlobalDefaulted off vsp) (fail (EExternalNotGlobal x) vsp) 1)|wt|].
    + intros c. unfold is_global, bind, get_level, ret. destruct (lv_depth (c_level c) =? 0); reflexivity.
    + apply E_gen. eapply genE_weaken; [eapply (genE_bindQ u16ok); [apply genE_symbol| |intros a0 Ha; apply genE_bind;
        [apply genE_external|intros; apply (genE_op16 _ _ _ _ wide_defaulted Ha)]]|lia|].
      * intros a0 X L c (_ & o & -> & Ho & _). unfold u16ok. lia.
      * intros r X L k K. exact K.
    + apply gen_fail.
    + intros d9 a9 X L k L' (? & k1 & k2 & L1 & -> & (-> & H1) & H2). destruct (d9 =? 0); [|instantiate (1 := fun _ _ _ _ _ _ => False) in H2; destruct H2].
      destruct H2 as (-> & id & k3 & k4 & -> & (-> & o & -> & Ho & Hn) & ? & k5 & k6 & -> & -> & ->).
      apply (cs_external m X L p (x, vsp)); auto.
  - (* assignment *)
    destruct x as [x vsp]. goE; [wt|]. un. apply (ce_assign m _ _ (x, vsp)); auto.
  - (* function *)
    split; [intros sp; apply genE_fail|]. intros p sp. cbn [cnode].
    eapply gen_weaken; [apply gen_bind; [apply E_gen, gen_function, gen_stmts, H|intros ?];
        eapply (gen_depth _ (do off <- add_global_symbol (fst x); write_op_u16 op_DefineGlobal off sp) (define_local (fst x) true ;; set_variable (fst x) sp) 2)|wt|].
    + intros c. apply is_global_run.
    + apply E_gen. eapply genE_weaken; [apply (genE_global _ _ _ _ wide_define)|lia|]. intros ? ? ? ? K; exact K.
    + apply gen_declare; exact HS.
    + intros d9 a9 X L k L' (? & k1 & k2 & L1 & -> & (-> & off & fn & caps & Hc & Hf & ->) & H2). destruct (d9 =? 0).
      * destruct H2 as (-> & g & Hg & ->). eapply cs_function_global; eauto.
      * destruct H2 as (-> & f & ->). eapply cs_function; eauto.
  - (* lambda *)
    goE; [apply gen_function, gen_stmts, H|wt|]. un. eapply ce_lambda; eauto.
  - (* block *)
    goE; [wt|]. un. constructor; auto.
  - (* conditional *)
    eapply genE_same with (x := write_op op_LoadNone sp ;; cnode m KExpr (fst c) (snd c) ;;
      (do else_jump <- write_jump op_JumpIfFalse sp;
       (write_op_u16 op_PopMany 2 sp ;; block_with (fun p => cnode m (KStmt p)) t) ;;
       do end_jump <- write_jump op_JumpForward sp; patch_jump else_jump sp ;;
       match o with
       | Some b => write_op_u16 op_PopMany 2 sp ;; block_with (fun p => cnode m (KStmt p)) b
       | None => write_op op_Pop sp
       end ;; patch_jump end_jump sp) ;; fin KExpr sp).
    { reassoc. }
    goE; [opw ILoadNone|eapply (gen_ifelse _ _ _ _ _ _ _ _ _ _ _ _ wide_jf); [goE; [apply (genE_op16 _ _ _ _ wide_popmany); reflexivity|apply le_n|intros ? ? ? ? K; exact K]|one]|wt|].
    un. eapply ce_cond; eauto.
  - (* switch *)
    eapply genE_same with (x := write_op op_LoadNone sp ;; cnode m KExpr (fst v) (snd v) ;;
      (do jumps <- cases_with (cnode m) cs;
       match d with
       | Some b => write_op_u16 op_PopMany 2 sp ;; block_with (fun p => cnode m (KStmt p)) b
       | None => write_op op_Pop sp
       end ;; patch_all jumps sp) ;; fin KExpr sp).
    { reassoc. }
    goE; [opw ILoadNone|apply gen_switch; assumption|wt|]. un. constructor; auto.
  - (* for *)
    destruct x as [x nsp].
    eapply genE_same with (x := (enter_scope ;; reserve_temps 2 ;; write_op op_NewLoopCtx sp ;;
        cnode m KExpr (fst i) (snd i) ;;
        enter_scope ;; write_op op_LoadNone sp ;;
        do start <- code_len; do exit <- write_jump op_IterNext sp;
        (write_op op_SwapPop sp ;; define_local x true) ;; stmnts_with (fun p => cnode m (KStmt p)) b ;;
        exit_scope sp ;; write_jump_backward start nsp ;; patch_jump exit nsp ;; exit_scope sp) ;; fin KExpr sp).
    { reassoc. }
    goE; [eapply gen_for; [assumption|assumption|apply gen_bind; [apply E_gen; opw ISwapPop|intros; apply gen_define]]|wt|].
    un. match goal with HS : seqJ _ _ _ _ _ _ _ _ |- _ => destruct HS as (? & k1 & k2 & L1 & -> & (-> & ->) & -> & f & ->) end. rewrite app_nil_r.
    eapply (ce_for m _ _ (x, nsp)); eauto.
  - (* for, unpacking *)
    destruct (over255 x) eqn:E.
    { intros c UN b0 a0 c' Hx. discriminate Hx. }
    apply over_ok in E.
    eapply genE_same with (x := (enter_scope ;; reserve_temps 2 ;; write_op op_NewLoopCtx sp ;;
        cnode m KExpr (fst i) (snd i) ;;
        enter_scope ;; write_op op_LoadNone sp ;;
        do start <- code_len; do exit <- write_jump op_IterNext sp;
        (write_op op_SwapPop sp ;; write_op_u8 op_Unpack (len8 x) (snd i) ;; define_locals (map fst (rev x))) ;; stmnts_with (fun p => cnode m (KStmt p)) b ;;
        exit_scope sp ;; write_jump_backward start sp ;; patch_jump exit sp ;; exit_scope sp) ;; fin KExpr sp).
    { reassoc. }
    goE; [eapply gen_for; [assumption|assumption|apply gen_bind; [apply E_gen; opw ISwapPop|intros; apply gen_unpack_locals; exact E]]|wt|].
    un. match goal with HS : seqJ _ _ _ _ _ _ _ _ |- _ => destruct HS as (? & k1 & k2 & L1 & -> & (-> & ->) & -> & new0 & Hn & ->) end.
    eapply ce_mfor; eauto.
  - (* while *)
    eapply genE_same with (x := write_op op_LoadNone sp ;;
      (do start <- code_len; cnode m KExpr (fst c) (snd c) ;; do exit <- write_jump op_JumpIfFalse sp;
       (write_op_u16 op_PopMany 2 (snd c) ;; block_with (fun p => cnode m (KStmt p)) b) ;;
       write_jump_backward start (snd c) ;; patch_jump exit sp ;; write_op op_Pop (snd c)) ;; fin KExpr sp).
    { reassoc. }
    goE; [opw ILoadNone|eapply (gen_loop _ _ _ _ _ _ _ _ _ _ _ _ _ _ wide_jf); [one|goE; [apply (genE_op16 _ _ _ _ wide_popmany); reflexivity|apply le_n|intros ? ? ? ? K; exact K]|opw IPop]|wt|].
    un. eapply ce_while; eauto.
  - (* binary *)
    goE; [apply genE_binary|wt|]. un. apply ce_binary; auto.
  - (* unary *)
    destruct (fold_unary m o (fst a)) as [[lit|? |]|] eqn:E.
    + eapply genE_same with (x := (do off <- add_constant (literal_to_value lit); write_op_u16 op_LoadConst off sp) ;; fin KExpr sp); [reassoc|].
      goE; [wt|]. un. eapply ce_fold; eauto.
    + intros c UN b0 a0 c' Hx. discriminate Hx.
    + intros c UN b0 a0 c' Hx. discriminate Hx.
    + eapply genE_same with (x := cnode m KExpr (fst a) (snd a) ;;
        match unary_opcode o with Some c => write_op c sp | None => crash end ;; fin KExpr sp); [reassoc|].
      goE; [apply genE_unary|wt|]. un. apply ce_unary; auto.
  - (* call *)
    destruct (over255 a) eqn:E; [apply genE_fail|]. apply over_ok in E.
    goE; [apply (genE_op8 _ (ICallFunction (len8 a))); [reflexivity|unfold len8; cbn; lia|discriminate]|wt|].
    un. apply ce_call; auto.
  - (* builtin *)
    destruct x as [x csp]. destruct (over255 a) eqn:E; [apply genE_fail|]. apply over_ok in E.
    eapply genE_same with (x := each_with (cnode m KExpr) a ;;
      (write_op op_CallBuiltin sp ;; do off <- add_global_symbol x; write_u16 off sp ;; write_u8 (len8 a) csp) ;; fin KExpr sp); [reassoc|].
    goE; [apply (genE_named _ ICallBuiltin); [reflexivity|unfold len8; cbn; lia|discriminate]|wt|].
    un. apply (ce_builtin m _ _ (x, csp)); auto.
  - (* context *)
    destruct x as [x csp]. destruct (over255 a) eqn:E; [apply genE_fail|]. apply over_ok in E.
    eapply genE_same with (x := each_with (cnode m KExpr) a ;;
      (write_op op_EnterContext sp ;; do off <- add_global_symbol x; write_u16 off sp ;; write_u8 (len8 a) csp) ;;
      (enter_scope ;; do r <- (match v with
      | Some (VarDecl (vn, vsp)) => define_local vn true ;; set_variable vn vsp
      | Some (VarMulti names) =>
          if over255 names then fail ETooMuchToUnpack csp else
          write_op_u8 op_Unpack (len8 names) sp ;; define_locals (map fst (rev names))
      | None => write_op op_Pop sp
      end ;; stmnts_with (fun p => cnode m (KStmt p)) b); exit_scope ((fun _ => sp) r)) ;; write_op op_ExitContext sp ;; fin KExpr sp); [reassoc|].
    goE; [apply (genE_named _ IEnterContext); [reflexivity|unfold len8; cbn; lia|discriminate]
         |apply gen_scope_body; [assumption|eapply gen_var; [intros y ->; exact HS|reflexivity]]|opw IExitContext|wt|].
    un. eapply (ce_context m _ _ (x, csp)); eauto.
  - goE; [opw IIndexGet|wt|]. un. constructor; auto.
  - (* include *)
    destruct x as [x vsp]. split; [intros sp; apply genE_fail|]. intros p sp. cbn [cnode].
    destruct b as [b|].
    + eapply gen_weaken; [eapply (gen_depth _ (each_with (fun n sp => cnode m (KStmt true) n sp) b) (fail EIncludeNotTopLevel vsp) (weights b) _ (fun _ _ _ _ _ _ => False))|wt|].
      * intros c. unfold bind, get_level. destruct (lv_depth (c_level c)); reflexivity.
      * apply gen_includes. exact H.
      * apply gen_fail.
      * intros d9 a9 X L k L' K. cbv beta in K. destruct (d9 =? 0) eqn:Ed; [|destruct K].
        apply Nat.eqb_eq in Ed. destruct (K Ed) as [-> K1]. constructor. exact K1.
    + intros c UN b0 a0 c' Hx. mbi Hx as l c1 H1. destruct (0 <? lv_depth l); discriminate.
  - (* return *)
    split; [intros sp; apply genE_fail|]. intros p sp. cbn [cnode].
    eapply gen_weaken; [eapply (gen_depth _ (fail EReturnOutsideFunction sp)
      (match e with Some v => cnode m KExpr (fst v) (snd v) | None => write_op op_LoadNone sp end ;; write_op op_Return sp) (weight (NReturn e)) (fun _ _ _ _ _ _ => False))|lia|].
    + intros c. unfold bind, get_level. destruct (lv_depth (c_level c) =? 0); reflexivity.
    + apply gen_fail.
    + apply E_gen. instantiate (1 := fun _ X L k => code_stmt m X false L p (NReturn e) k L).
      destruct e as [v|].
      * prep HN. goE; [opw IReturn|wt|]. un. constructor; auto.
      * goE; [opw ILoadNone|opw IReturn|wt|]. un. constructor; auto.
    + intros d9 a9 X L k L' K. cbv beta in K. destruct (d9 =? 0) eqn:Ed; [destruct K|].
      destruct K as [-> K]. exact K.
Qed.
End Main.
