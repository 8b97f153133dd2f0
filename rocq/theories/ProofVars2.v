(** C09: what returning from a function does to captured variables. *)
From Verif Require Import Base RleVec Pool Vecc Float NumText Bytecode Chunk Value Ast Arith VmOps
                          Compiler Vm SpecVm ProofVm ProofVm2 ProofVars.

Section Return.
Context {D : Type} (m : mode) (hst : host D).

Definition known (s : vm D) : Prop :=
  forall c, In c (v_opens s) <-> exists l, nth_error (v_heap s) c = Some (Open l).
Definition cell_I (s : vm D) : Prop := lim_I s /\ known s.

Lemma known_change s o h : known s -> cell_change s o h -> known (set_cells o h s).
Proof.
  intros H [c v w E|l|l v] d; cbn [v_opens v_heap set_cells].
  - rewrite (H d). destruct (Nat.eq_dec d c) as [->|Hd].
    + rewrite nth_error_upd_eq by (apply nth_error_Some; congruence). split; intros [l Hl]; congruence.
    + rewrite nth_error_upd_neq by auto. reflexivity.
  - rewrite in_app_iff, (H d). cbn [In]. destruct (Nat.lt_ge_cases d (length (v_heap s))) as [Hl|Hl].
    + rewrite nth_error_app1 by auto. split; [intros [?|[?|[]]]; [auto|lia]|auto].
    + rewrite nth_error_app2 by auto. split.
      * intros [[l' Hl']|[<-|[]]]; [exfalso; apply nth_error_None in Hl; congruence|]. rewrite Nat.sub_diag. cbn. eauto.
      * intros [l' Hl']. right; left. destruct (d - length (v_heap s)) as [|[|]] eqn:Ed; cbn in Hl'; try discriminate. lia.
  - rewrite filter_In, is_open_spec, (H d). split; [tauto|]. intros [l' Hl']. split; [|eauto].
    rewrite close_cells_nth in Hl'. destruct (nth_error (v_heap s) d) as [[]|]; try discriminate. eauto.
Qed.

Lemma cell_stable : stable hst cell_I lim_J.
Proof.
  destruct (lim_stable hst) as [H1 H2 H3 H4 H5 H6 H7 H8 H9 H10 H11 H12 H13 H14 H15]. unfold cell_I, known in *.
  constructor; intros; repeat match goal with H : _ /\ _ |- _ => destruct H end; eauto.
  all: try (split; [first [apply H6; assumption|eauto]|]; eauto).
  all: try (apply known_change; assumption).
  all: eauto.
Qed.

Lemma cell_new d sc o bs : cell_I (vm_new_with d sc o bs).
Proof.
  assert (G : forall l s, cell_I s -> cell_I (add_builtins_list l s)).
  { intros l s [H1 H2]. split; [apply lim_builtins; auto|]. clear H1.
    revert s H2. induction l as [|[n b] l IH]; intros s H2; cbn [add_builtins_list]; auto.
    destruct (pool_add _ _ _) as [p i]. apply IH. exact H2. }
  unfold vm_new_with. assert (H : cell_I (vm_new d sc o)).
  { split; [unfold lim_I, lim_J, bottom; cbn; rewrite repeat_length; repeat split; auto; lia|]. intros c; cbn. split; [intros []|]. intros [l E]. destruct c; discriminate. }
  revert H. generalize (vm_new d sc o). induction bs as [|b bs IH]; intros s H; cbn [fold_left]; auto.
Qed.

Lemma return_cells d sc o bs s s' : reach m hst (vm_new_with d sc o bs) s ->
  next_instr s = Some IReturn -> step m hst s = SNext s' ->
  forall c, nth_error (v_heap s') c =
    match nth_error (v_heap s) c with
    | Some (Open l) => if (f_st (v_frame s) <=? l) && (l <? pred (v_sp s))
                       then option_map Closed (nth_error (v_stack s) l) else Some (Open l)
    | x => x
    end.
Proof.
  intros HR Hn Hs.
  pose proof (inv_reach m hst cell_I lim_J ltac:(unfold cell_I, lim_I; tauto) cell_stable _ _ (cell_new d sc o bs) HR) as HI.
  unfold step in Hs.
  pose proof (keeps_tick hst cell_I lim_J ltac:(unfold cell_I, lim_I; tauto) cell_stable s HI) as HT.
  assert (ET : forall s1, tick hst s = AOk tt s1 -> v_heap s1 = v_heap s /\ v_stack s1 = v_stack s /\ v_sp s1 = v_sp s
    /\ v_frame s1 = v_frame s).
  { unfold tick, abind, agets, amod, has_runtime_exceeded, abind, agets, amod. intros s1.
    destruct (_ <? _); [|intros [= <-]; auto].
    destruct (_ <? _)%N; cbn; [discriminate|]. intros [= <-]; auto. }
  destruct (tick hst s) as [[] s1| |] eqn:E; try discriminate. destruct (ET s1 eq_refl) as (E1 & E2 & E3 & E4). clear ET E.
  unfold ip, cur_chunk in *. rewrite E4 in *. unfold next_instr, ip, cur_chunk in Hn.
  destruct (_ <=? _); [discriminate|]. destruct (decode _ _) as [[i ip']| |]; try discriminate. injection Hn as ->.
  destruct HT as [HL HK]. unfold do_return in Hs.
  set (s2 := set_ip ip' s1) in *.
  assert (F : v_heap s2 = v_heap s /\ v_stack s2 = v_stack s /\ v_sp s2 = v_sp s /\ f_st (v_frame s2) = f_st (v_frame s)
     /\ known s2 /\ length (v_stack s2) = o_stack_size (v_opts s2) /\ v_sp s2 <= o_stack_size (v_opts s2)).
  { cbn. rewrite E4. repeat split; auto; try (apply HK); apply HL. }
  clearbody s2. clear E1 E2 E3 E4 HL HK s1. destruct F as (E1 & E2 & E3 & E4 & HK & HL & HP).
  unfold pop in Hs. destruct (v_sp s2) as [|k] eqn:Ek; [discriminate|]. unfold slot in Hs. cbn [v_stack set_stack] in Hs.
  destruct (nth_error (v_stack s2) k) as [r|] eqn:Er; [|discriminate]. cbn [v_frame v_sp set_stack] in Hs.
  set (s3 := set_stack (v_stack s2) k s2) in *.
  destruct (Nat.le_gt_cases (f_st (v_frame s2)) k) as [Hk|Hk].
  - destruct (close_range_ok (k - f_st (v_frame s2)) (f_st (v_frame s2)) s3) as (o' & h' & Ec & [_ Hc] & _).
    { exact HK. } { cbn. lia. }
    rewrite Ec in Hs. cbn [v_frames set_cells s3 set_stack] in Hs.
    assert (Hh : v_heap s' = h').
    { destruct (v_frames s2); [destruct m, k; discriminate|]. unfold push in Hs.
      destruct (_ <=? _) in Hs; [discriminate|]. destruct (_ <? _) in Hs; [|discriminate]. injection Hs as <-. reflexivity. }
    intros c. rewrite Hh, Hc. cbn [s3 set_stack v_heap v_stack]. rewrite E1. destruct (nth_error (v_heap s) c) as [[l|]|]; auto.
    rewrite E4, <- E3, E2 in *. cbn [pred]. replace (f_st (v_frame s) + (k - f_st (v_frame s))) with k by lia. reflexivity.
  - replace (k - f_st (v_frame s2)) with 0 in Hs by lia. cbn [close_range aret] in Hs.
    assert (Hh : v_heap s' = v_heap s2).
    { cbn [aret v_frames s3 set_stack] in Hs. destruct (v_frames s2); [destruct m, k; discriminate|]. unfold push in Hs.
      destruct (_ <=? _) in Hs; [discriminate|]. destruct (_ <? _) in Hs; [|discriminate]. injection Hs as <-. reflexivity. }
    intros c. rewrite Hh, E1. destruct (nth_error (v_heap s) c) as [[l|]|]; auto.
    destruct (_ <=? _) eqn:X1; auto. destruct (_ <? _) eqn:X2; auto. apply Nat.leb_le in X1. apply Nat.ltb_lt in X2. lia.
Qed.
End Return.
