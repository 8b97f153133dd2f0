(** C09: captured variables on the machine behave like variables. *)
From Verif Require Import Base RleVec Pool Vecc Float NumText Bytecode Chunk Value Ast Arith VmOps
                          Compiler Vm SpecVm ProofVm.

Lemma is_open_at_spec h l c : is_open_at h l c = true <-> nth_error h c = Some (Open l).
Proof.
  unfold is_open_at. destruct (nth_error h c) as [[l'|v]|]; try (split; congruence).
  rewrite Nat.eqb_eq. split; congruence.
Qed.
Lemma is_open_spec h c : is_open h c = true <-> exists l, nth_error h c = Some (Open l).
Proof.
  unfold is_open. destruct (nth_error h c) as [[l'|v]|]; split; try congruence; eauto;
    intros [l E]; congruence.
Qed.

(** What closing does to a heap. *)
Definition closed_at (h : list upvalue) (st : list value) (from n : nat) (h' : list upvalue) : Prop :=
  length h' = length h /\
  forall c, nth_error h' c =
    match nth_error h c with
    | Some (Open l) => if (from <=? l) && (l <? from + n)
                       then option_map Closed (nth_error st l) else Some (Open l)
    | x => x
    end.

Lemma close_cells_length last v opens : forall h, length (close_cells last v opens h) = length h.
Proof.
  unfold close_cells. induction opens as [|c opens IH]; intros h; cbn [fold_left]; auto.
  rewrite IH. destruct (is_open_at h last c); auto. apply upd_length.
Qed.
Lemma close_cells_nth last v opens : forall h c,
  nth_error (close_cells last v opens h) c =
    match nth_error h c with
    | Some (Open l) => if (l =? last) && existsb (Nat.eqb c) opens then Some (Closed v) else Some (Open l)
    | x => x
    end.
Proof.
  unfold close_cells. induction opens as [|d opens IH]; intros h c; cbn [fold_left existsb].
  - destruct (nth_error h c) as [[l|w]|]; auto. rewrite andb_false_r. auto.
  - rewrite IH. clear IH. destruct (is_open_at h last d) eqn:E.
    + apply is_open_at_spec in E. assert (Hd : d < length h) by (apply nth_error_Some; congruence).
      destruct (Nat.eq_dec c d) as [->|Hc].
      * rewrite nth_error_upd_eq by auto. rewrite E, !Nat.eqb_refl. reflexivity.
      * rewrite nth_error_upd_neq by auto. apply Nat.eqb_neq in Hc. rewrite Hc. reflexivity.
    + destruct (nth_error h c) as [[l|w]|] eqn:Ec; auto.
      destruct (l =? last) eqn:El; auto. cbn [andb]. destruct (c =? d) eqn:Ed; auto.
      apply Nat.eqb_eq in El, Ed. subst. exfalso.
      assert (is_open_at h last d = true) by (apply is_open_at_spec; auto). congruence.
Qed.

Section Close.
Context {D : Type}.

Lemma close_range_spec n : forall from (s : vm D),
  (forall c l, nth_error (v_heap s) c = Some (Open l) -> In c (v_opens s)) ->
  from + n <= length (v_stack s) ->
  exists opens' h', close_range from n s = AOk tt (set_cells opens' h' s) /\
    closed_at (v_heap s) (v_stack s) from n h' /\
    (forall c, In c opens' <-> In c (v_opens s) /\ exists l, nth_error h' c = Some (Open l)
                              \/ n = 0 /\ In c (v_opens s)) /\
    (forall c l, nth_error h' c = Some (Open l) -> In c opens').
Proof.
  induction n as [|n IH]; intros from s Ho Hl; cbn [close_range].
  - exists (v_opens s), (v_heap s). split; [destruct s; reflexivity|]. split; [|split].
    + split; auto. intros c. destruct (nth_error (v_heap s) c) as [[l|w]|]; auto.
      destruct (_ <=? _) eqn:E1; auto. destruct (_ <? _) eqn:E2; auto.
      apply Nat.leb_le in E1. apply Nat.ltb_lt in E2. lia.
    + intros c. split; [intros Hc; split; auto; exists 0; auto|tauto].
    + auto.
  - unfold abind, close_upvalues.
    destruct (nth_error (v_stack s) from) as [v|] eqn:Ev.
    2:{ apply nth_error_None in Ev. lia. }
    set (h := close_cells from v (v_opens s) (v_heap s)).
    set (s1 := set_cells (filter (is_open h) (v_opens s)) h s).
    assert (Hh : forall c, nth_error h c = match nth_error (v_heap s) c with
                 | Some (Open l) => if l =? from then Some (Closed v) else Some (Open l)
                 | x => x end).
    { intros c. unfold h. rewrite close_cells_nth.
      destruct (nth_error (v_heap s) c) as [[l|w]|] eqn:Ec; auto.
      assert (Hin : existsb (Nat.eqb c) (v_opens s) = true).
      { apply existsb_exists. exists c. split; [eapply Ho; eauto | apply Nat.eqb_refl]. }
      rewrite Hin, andb_true_r. reflexivity. }
    destruct (IH (S from) s1) as (o' & h' & E & Hcl & Hop & Hin).
    { intros c l Hc. cbn [v_heap s1 set_cells] in Hc. cbn [v_opens s1 set_cells].
      apply filter_In. split.
      - rewrite Hh in Hc. destruct (nth_error (v_heap s) c) as [[l'|w]|] eqn:Ec; try discriminate.
        eapply Ho; eauto.
      - apply is_open_spec; eauto. }
    { cbn [v_stack s1 set_cells]. lia. }
    exists o', h'. rewrite E. split; [reflexivity|]. split; [|split].
    + destruct Hcl as [H1 H2]. cbn [v_heap v_stack s1 set_cells] in *. split.
      { rewrite H1. unfold h. apply close_cells_length. }
      intros c. rewrite H2, Hh. destruct (nth_error (v_heap s) c) as [[l|w]|] eqn:Ec; auto.
      destruct (l =? from) eqn:El.
      * apply Nat.eqb_eq in El; subst l. rewrite Ev, Nat.leb_refl. cbn [andb option_map].
        assert (Hlt : (from <? from + S n) = true) by (apply Nat.ltb_lt; lia). rewrite Hlt. reflexivity.
      * apply Nat.eqb_neq in El.
        assert (E1 : (S from <=? l) = (from <=? l)).
        { destruct (from <=? l) eqn:X; [apply Nat.leb_le in X; apply Nat.leb_le; lia|].
          apply Nat.leb_gt in X. apply Nat.leb_gt. lia. }
        rewrite E1. replace (S from + n) with (from + S n) by lia. reflexivity.
    + intros c. rewrite Hop. cbn [v_opens s1 set_cells]. rewrite filter_In. split.
      * intros ((H1 & H2) & l & [H3|[Hn H3]]).
        { split; auto. exists l; auto. }
        split; auto. destruct Hcl as [_ Hcl]. apply is_open_spec in H2 as [l2 H2].
        exists l2; left. rewrite Hcl. cbn [v_heap s1 set_cells]. rewrite H2. subst n.
        destruct (_ <=? _) eqn:X1, (_ <? _) eqn:X2; auto.
        apply Nat.leb_le in X1. apply Nat.ltb_lt in X2. lia.
      * intros (H1 & l & [H2|[H2 _]]); [|discriminate].
        split; [split; auto|exists l; auto].
        destruct Hcl as [_ Hcl]. rewrite Hcl in H2. cbn [v_heap s1 set_cells] in H2.
        apply is_open_spec. destruct (nth_error h c) as [[l2|w]|]; try discriminate. eauto.
    + intros c l Hc. apply (Hin c l Hc).
Qed.

Lemma close_range_ok n from (s : vm D) :
  (forall c, In c (v_opens s) <-> exists l, nth_error (v_heap s) c = Some (Open l)) ->
  from + n <= length (v_stack s) ->
  exists opens' h', close_range from n s = AOk tt (set_cells opens' h' s) /\
    closed_at (v_heap s) (v_stack s) from n h' /\
    (forall c, In c opens' <-> exists l, nth_error h' c = Some (Open l)).
Proof.
  intros Ho Hl. destruct (close_range_spec n from s) as (o' & h' & E & Hc & Hop & Hin); auto.
  { intros c l Hc. apply Ho. eauto. }
  exists o', h'. split; [auto|split; [auto|]]. intros c. split.
  - intros Hi. apply Hop in Hi as (Hi & l & [H1|[H1 H2]]); [eauto|].
    apply Ho in Hi as [l2 Hl2]. destruct Hc as [_ Hc]. exists l2. rewrite Hc, Hl2.
    destruct (_ <=? _) eqn:X1, (_ <? _) eqn:X2; auto.
    apply Nat.leb_le in X1. apply Nat.ltb_lt in X2. lia.
  - intros [l H1]. eapply Hin; eauto.
Qed.
End Close.

Section Vars.
Context {D : Type} (m : mode) (hst : host D).

Record var_rel (s : vm D) (caps : list nat) (st : vars) (cv : list nat) : Prop := {
  r_len : length (v_stack s) = o_stack_size (v_opts s);
  r_sp : v_sp s = length (vs_scope st);
  r_fit : v_sp s <= o_stack_size (v_opts s);
  r_nodup : NoDup (vs_scope st);
  r_bound : Forall (fun x => x < length (vs_values st)) (vs_scope st);
  r_val : forall j x, nth_error (vs_scope st) j = Some x ->
          nth_error (v_stack s) j = nth_error (vs_values st) x;
  r_cells : length cv = length (v_heap s);
  r_cnodup : NoDup cv;
  r_cbound : Forall (fun x => x < length (vs_values st)) cv;
  r_open : forall c l x, nth_error (v_heap s) c = Some (Open l) -> nth_error cv c = Some x ->
           nth_error (vs_scope st) l = Some x;
  r_closed : forall c v x, nth_error (v_heap s) c = Some (Closed v) -> nth_error cv c = Some x ->
           nth_error (vs_values st) x = Some v /\ ~ In x (vs_scope st);
  r_opens : forall c, In c (v_opens s) <-> exists l, nth_error (v_heap s) c = Some (Open l);
  r_caps : Forall2 (fun c x => nth_error cv c = Some x) caps (vs_caps st)
}.

Lemma nodup_nth {A} (l : list A) i j x : NoDup l -> nth_error l i = Some x -> nth_error l j = Some x -> i = j.
Proof.
  intros H Hi Hj. eapply NoDup_nth_error; eauto; [|congruence]. apply nth_error_Some; congruence.
Qed.
Lemma nodup_app_l {A} (a b : list A) : NoDup (a ++ b) -> NoDup a.
Proof.
  induction a as [|x a IH]; intros H; [constructor|]. inversion H; subst. constructor; auto.
  intros Hi. apply H2. apply in_or_app; auto.
Qed.
Lemma nodup_snoc {A} (l : list A) x : NoDup l -> ~ In x l -> NoDup (l ++ [x]).
Proof.
  induction 1 as [|y l Hy Hl IH]; cbn; intros Hn; [repeat constructor; auto|]. constructor.
  - rewrite in_app_iff. cbn. intros [|[|[]]]; subst; tauto.
  - apply IH. tauto.
Qed.
Lemma forall_nth {A} (P : A -> Prop) l i x : Forall P l -> nth_error l i = Some x -> P x.
Proof. intros H Hi. rewrite Forall_forall in H. apply H. eapply nth_error_In; eauto. Qed.
Lemma cv_some s caps st cv c u : var_rel s caps st cv -> nth_error (v_heap s) c = Some u ->
  exists x, nth_error cv c = Some x /\ x < length (vs_values st).
Proof.
  intros H Hc. assert (c < length cv).
  { rewrite (r_cells _ _ _ _ H). apply nth_error_Some; congruence. }
  destruct (nth_error cv c) as [x|] eqn:E; [|apply nth_error_None in E; lia].
  exists x; split; auto. exact (forall_nth _ _ _ _ (r_cbound _ _ _ _ H) E).
Qed.

(** Writing variable [x]. *)
Lemma write_slot s caps st cv i x v : var_rel s caps st cv -> nth_error (vs_scope st) i = Some x ->
  set_slot i v s = AOk tt (set_stack (upd i v (v_stack s)) (v_sp s) s) /\
  var_rel (set_stack (upd i v (v_stack s)) (v_sp s) s) caps
          (mkVars (upd x v (vs_values st)) (vs_scope st) (vs_caps st)) cv.
Proof.
  intros H Hi.
  assert (Hx : x < length (vs_values st)) by (exact (forall_nth _ _ _ _ (r_bound _ _ _ _ H) Hi)).
  assert (Hil : i < length (v_stack s)).
  { rewrite (r_len _ _ _ _ H). assert (i < length (vs_scope st)) by (apply nth_error_Some; congruence).
    pose proof (r_sp _ _ _ _ H). pose proof (r_fit _ _ _ _ H). lia. }
  split.
  { unfold set_slot. apply Nat.ltb_lt in Hil. rewrite Hil. reflexivity. }
  destruct H. constructor; cbn [v_stack v_sp v_opts v_heap v_opens set_stack vs_scope vs_values vs_caps];
    rewrite ?upd_length; auto.
  - intros j y Hj. destruct (Nat.eq_dec j i) as [->|Hne].
    + assert (y = x) by congruence. subst y. rewrite !nth_error_upd_eq; auto.
    + assert (y <> x) by (intros ->; apply Hne; exact (nodup_nth _ _ _ _ r_nodup0 Hj Hi)).
      rewrite !nth_error_upd_neq; auto.
  - intros c w y Hc Hy. destruct (r_closed0 c w y Hc Hy) as [H1 H2]. split; auto.
    rewrite nth_error_upd_neq; auto. intros ->. apply H2. eapply nth_error_In; eauto.
Qed.

Lemma write_closed s caps st cv c w x v : var_rel s caps st cv ->
  nth_error (v_heap s) c = Some (Closed w) -> nth_error cv c = Some x ->
  var_rel (set_cells (v_opens s) (upd c (Closed v) (v_heap s)) s) caps
          (mkVars (upd x v (vs_values st)) (vs_scope st) (vs_caps st)) cv.
Proof.
  intros H Hc Hx.
  assert (Hlt : x < length (vs_values st)) by (exact (forall_nth _ _ _ _ (r_cbound _ _ _ _ H) Hx)).
  destruct (r_closed _ _ _ _ H c w x Hc Hx) as [_ Hns].
  assert (Hcl : c < length (v_heap s)) by (apply nth_error_Some; congruence).
  destruct H. constructor; cbn [v_stack v_sp v_opts v_heap v_opens set_cells vs_scope vs_values vs_caps];
    rewrite ?upd_length; auto.
  - intros j y Hj. rewrite nth_error_upd_neq; [auto|]. intros ->. apply Hns. eapply nth_error_In; eauto.
  - intros c' l y Hc' Hy. destruct (Nat.eq_dec c c') as [->|Hne].
    + rewrite nth_error_upd_eq in Hc' by auto. discriminate.
    + rewrite nth_error_upd_neq in Hc' by auto. eauto.
  - intros c' w' y Hc' Hy. destruct (Nat.eq_dec c c') as [->|Hne].
    + rewrite nth_error_upd_eq in Hc' by auto. injection Hc' as <-. assert (y = x) by congruence. subst y.
      rewrite nth_error_upd_eq by auto. auto.
    + rewrite nth_error_upd_neq in Hc' by auto. destruct (r_closed0 c' w' y Hc' Hy) as [H1 H2]. split; auto.
      rewrite nth_error_upd_neq; auto. intros ->. apply Hne. exact (nodup_nth _ _ _ _ r_cnodup0 Hx Hy).
  - intros c'. rewrite r_opens0. split; intros [l Hl]; exists l.
    + rewrite nth_error_upd_neq; auto. intros ->. congruence.
    + destruct (Nat.eq_dec c c') as [->|Hne]; [rewrite nth_error_upd_eq in Hl by auto; discriminate|].
      rewrite nth_error_upd_neq in Hl; auto.
Qed.

Lemma nth_firstn {A} (l : list A) k i : nth_error (firstn k l) i = if i <? k then nth_error l i else None.
Proof.
  revert k i; induction l as [|x l IH]; intros [|k] [|i]; cbn [firstn nth_error]; auto.
  - destruct (S i <? S k); auto.
  - rewrite IH. reflexivity.
Qed.

(** Leaving the variables from slot [k] on. *)
Lemma leave_rel s caps st cv k : var_rel s caps st cv ->
  exists o' h', close_range k (v_sp s - k) s = AOk tt (set_cells o' h' s) /\
    var_rel (set_stack (v_stack s) (Nat.min k (v_sp s)) (set_cells o' h' s)) caps
            (mkVars (vs_values st) (firstn k (vs_scope st)) (vs_caps st)) cv.
Proof.
  intros H. destruct (Nat.le_gt_cases k (v_sp s)) as [Hk|Hk].
  2:{ replace (v_sp s - k) with 0 by lia. exists (v_opens s), (v_heap s).
      split; [destruct s; reflexivity|]. rewrite Nat.min_r by lia.
      rewrite firstn_all2 by (rewrite <- (r_sp _ _ _ _ H); lia).
      destruct s, st; cbn in *. exact H. }
  destruct (close_range_ok (v_sp s - k) k s (r_opens _ _ _ _ H)) as (o' & h' & E & Hcl & Hop).
  { rewrite (r_len _ _ _ _ H). pose proof (r_fit _ _ _ _ H). lia. }
  exists o', h'. split; auto. rewrite Nat.min_l by lia.
  replace (k + (v_sp s - k)) with (v_sp s) in Hcl by lia. destruct Hcl as [Hl1 Hcl].
  destruct H. constructor; cbn [v_stack v_sp v_opts v_heap v_opens set_cells set_stack vs_scope vs_values vs_caps]; auto.
  - rewrite firstn_length. lia.
  - lia.
  - rewrite <- (firstn_skipn k (vs_scope st)) in r_nodup0. eapply nodup_app_l; eauto.
  - rewrite Forall_forall in *. intros x Hx. apply r_bound0. rewrite <- (firstn_skipn k (vs_scope st)).
    apply in_or_app; auto.
  - intros j x. rewrite nth_firstn. destruct (j <? k); [auto|discriminate].
  - congruence.
  - intros c l x Hc Hx. rewrite Hcl in Hc. destruct (nth_error (v_heap s) c) as [[l0|w]|] eqn:Ec; try discriminate.
    pose proof (r_open0 c l0 x Ec Hx) as Ho.
    assert (Hlt : l0 < length (vs_scope st)) by (apply nth_error_Some; congruence).
    destruct (_ <=? _) eqn:X1, (_ <? _) eqn:X2; cbn [andb] in Hc.
    + destruct (nth_error (v_stack s) l0); discriminate.
    + apply Nat.ltb_ge in X2. lia.
    + injection Hc as <-. apply Nat.leb_gt in X1. rewrite nth_firstn.
      apply Nat.ltb_lt in X1. rewrite X1. auto.
    + apply Nat.ltb_ge in X2. lia.
  - intros c v x Hc Hx. rewrite Hcl in Hc. destruct (nth_error (v_heap s) c) as [[l0|w]|] eqn:Ec; try discriminate.
    + destruct (_ <=? _) eqn:X1, (_ <? _) eqn:X2; cbn [andb] in Hc; try discriminate.
      apply Nat.leb_le in X1. pose proof (r_open0 c l0 x Ec Hx) as Ho. rewrite (r_val0 _ _ Ho) in Hc.
      destruct (nth_error (vs_values st) x) as [v'|]; [|discriminate]. injection Hc as <-. split; auto.
      intros Hin. apply In_nth_error in Hin as [j Hj]. rewrite nth_firstn in Hj.
      destruct (j <? k) eqn:Ej; [|discriminate]. apply Nat.ltb_lt in Ej.
      assert (j = l0) by (exact (nodup_nth _ _ _ _ r_nodup0 Hj Ho)). lia.
    + injection Hc as <-. destruct (r_closed0 c w x Ec Hx) as [H1 H2]. split; auto.
      intros Hin. apply H2. rewrite <- (firstn_skipn k (vs_scope st)). apply in_or_app; auto.
Qed.

Lemma forall2_impl {A B} (P Q : A -> B -> Prop) l l' : (forall a b, P a b -> Q a b) ->
  Forall2 P l l' -> Forall2 Q l l'.
Proof. intros H. induction 1; constructor; auto. Qed.

Lemma Forall2_nth {A B} (P : A -> B -> Prop) l l' : Forall2 P l l' -> forall i,
  match nth_error l i, nth_error l' i with
  | Some a, Some b => P a b | None, None => True | _, _ => False end.
Proof. induction 1; intros [|i]; cbn; auto. apply IHForall2. Qed.

Lemma removelast_firstn_len {A} (l : list A) : removelast l = firstn (length l - 1) l.
Proof.
  induction l as [|x l IH]; auto. cbn [removelast length]. destruct l as [|y l]; auto.
  rewrite IH. cbn [length]. replace (S (S (length l)) - 1) with (S (S (length l) - 1)) by lia. reflexivity.
Qed.

Lemma var_step_sim s caps st cv o : var_rel s caps st cv ->
  v_sp s < o_stack_size (v_opts s) \/ (forall v, o <> Declare v) ->
  exists s' caps' cv', vm_var_step m hst s caps o = Some (s', caps', snd (var_step st o)) /\
    var_rel s' caps' (fst (var_step st o)) cv' /\ v_opts s' = v_opts s /\ v_sp s' <= S (v_sp s).
Proof.
  intros H Hroom. destruct o as [v|i|i|i v|h|h v| |k]; cbn [vm_var_step var_step].
  - (* Declare *)
    assert (Hlt : v_sp s < o_stack_size (v_opts s)) by (destruct Hroom as [|Hr]; auto; exfalso; eapply Hr; eauto).
    unfold push. pose proof (r_len _ _ _ _ H) as Hlen.
    assert (E1 : (o_stack_size (v_opts s) <=? v_sp s) = false) by (apply Nat.leb_gt; auto).
    assert (E2 : (v_sp s <? length (v_stack s)) = true) by (apply Nat.ltb_lt; lia).
    rewrite E1, E2. do 3 eexists. split; [reflexivity|]. split; [|split; [reflexivity|cbn; lia]].
    instantiate (1 := cv). cbn [fst]. destruct H.
    constructor; cbn [v_stack v_sp v_opts v_heap v_opens set_stack vs_scope vs_values vs_caps]; rewrite ?upd_length; auto.
    + rewrite app_length. cbn. lia.
    + apply nodup_snoc; auto. intros Hin. rewrite Forall_forall in r_bound0.
      specialize (r_bound0 _ Hin). lia.
    + apply Forall_app. split; [|repeat constructor; rewrite app_length; cbn; lia].
      eapply Forall_impl; [|exact r_bound0]. intros a Ha. rewrite app_length. cbn in *. lia.
    + intros j x Hj. destruct (Nat.lt_ge_cases j (length (vs_scope st))) as [Hl|Hl].
      * rewrite nth_error_app1 in Hj by auto. rewrite nth_error_upd_neq by lia.
        rewrite nth_error_app1; auto. exact (forall_nth _ _ _ _ r_bound0 Hj).
      * rewrite nth_error_app2 in Hj by auto. destruct (j - length (vs_scope st)) as [|q] eqn:Eq; cbn in Hj.
        -- injection Hj as <-. replace j with (v_sp s) by lia. rewrite nth_error_upd_eq by lia.
           rewrite nth_error_app2, Nat.sub_diag by lia. reflexivity.
        -- destruct q; discriminate.
    + eapply Forall_impl; [|exact r_cbound0]. intros a Ha. rewrite app_length. cbn in *. lia.
    + intros c l x Hc Hx. specialize (r_open0 c l x Hc Hx). rewrite nth_error_app1; auto.
      apply nth_error_Some; congruence.
    + intros c w x Hc Hx. destruct (r_closed0 c w x Hc Hx) as [H1 H2]. split.
      * rewrite nth_error_app1; auto. apply nth_error_Some; congruence.
      * rewrite in_app_iff. intros [Hi|[Hi|[]]]; auto. subst x.
        assert (length (vs_values st) < length (vs_values st)) by (apply nth_error_Some; congruence). lia.
  - (* Capture *)
    replace (i <? v_sp s) with (i <? length (vs_scope st)) by (rewrite (r_sp _ _ _ _ H); reflexivity).
    destruct (i <? length (vs_scope st)) eqn:Ei.
    2:{ apply Nat.ltb_ge in Ei. apply nth_error_None in Ei. rewrite Ei. exists s, caps, cv. auto. }
    apply Nat.ltb_lt in Ei. destruct (nth_error (vs_scope st) i) as [x|] eqn:Ex.
    2:{ apply nth_error_None in Ex. lia. }
    unfold capture_upvalue. destruct (find _ _) as [c|] eqn:Ef.
    + apply find_some in Ef as [Hin Hop]. apply is_open_at_spec in Hop.
      exists s, (caps ++ [c]), cv. split; [reflexivity|]. split; [|auto].
      destruct (cv_some _ _ _ _ _ _ H Hop) as (y & Hy & _).
      assert (y = x) by (pose proof (r_open _ _ _ _ H c i y Hop Hy); congruence). subst y.
      destruct H; constructor; cbn; auto. apply Forall2_app; auto.
    + do 2 eexists. exists (cv ++ [x]). split; [reflexivity|]. split; [|split; [reflexivity|cbn; lia]].
      pose proof (find_none _ _ Ef) as Hnone.
      assert (Hnew : ~ In x cv).
      { intros Hin. apply In_nth_error in Hin as [c Hc].
        assert (c < length (v_heap s)).
        { rewrite <- (r_cells _ _ _ _ H). apply nth_error_Some; congruence. }
        destruct (nth_error (v_heap s) c) as [[l|w]|] eqn:Eh; [| |apply nth_error_None in Eh; lia].
        - pose proof (r_open _ _ _ _ H c l x Eh Hc) as Ho.
          assert (l = i) by (eapply nodup_nth; [exact (r_nodup _ _ _ _ H)| |]; eauto). subst l.
          assert (In c (v_opens s)) by (apply (r_opens _ _ _ _ H); eauto).
          specialize (Hnone c H1). assert (is_open_at (v_heap s) i c = true) by (apply is_open_at_spec; auto).
          congruence.
        - destruct (r_closed _ _ _ _ H c w x Eh Hc) as [_ Hns]. apply Hns. eapply nth_error_In; eauto. }
      assert (Hxl : x < length (vs_values st)) by (exact (forall_nth _ _ _ _ (r_bound _ _ _ _ H) Ex)).
      destruct H. constructor; cbn [v_stack v_sp v_opts v_heap v_opens set_cells vs_scope vs_values vs_caps fst]; auto.
      * rewrite !app_length; cbn; lia.
      * apply nodup_snoc; auto.
      * apply Forall_app; auto.
      * intros c l y Hc Hy. destruct (Nat.lt_ge_cases c (length (v_heap s))) as [Hl|Hl].
        -- rewrite nth_error_app1 in Hc, Hy by lia. eauto.
        -- rewrite nth_error_app2 in Hc, Hy by lia. rewrite r_cells0 in Hy.
           destruct (c - length (v_heap s)) as [|q]; cbn in *; [|destruct q; discriminate].
           injection Hc as <-. injection Hy as <-. auto.
      * intros c l y Hc Hy. destruct (Nat.lt_ge_cases c (length (v_heap s))) as [Hl|Hl].
        -- rewrite nth_error_app1 in Hc, Hy by lia. eauto.
        -- rewrite nth_error_app2 in Hc, Hy by lia.
           destruct (c - length (v_heap s)) as [|q]; cbn in *; [|destruct q]; discriminate.
      * intros c. rewrite in_app_iff, r_opens0. cbn [In]. split.
        -- intros [[l Hl]|[<-|[]]].
           ++ exists l. rewrite nth_error_app1; auto. apply nth_error_Some; congruence.
           ++ exists i. rewrite nth_error_app2, Nat.sub_diag; auto.
        -- intros [l Hl]. destruct (Nat.lt_ge_cases c (length (v_heap s))) as [Hlt|Hge].
           ++ rewrite nth_error_app1 in Hl by auto. left; eauto.
           ++ rewrite nth_error_app2 in Hl by auto. right; left.
              destruct (c - length (v_heap s)) as [|q] eqn:Eq; [lia|]. destruct q; discriminate.
      * apply Forall2_app.
        -- refine (forall2_impl _ _ _ _ _ r_caps0). cbn. intros a b Hab. rewrite nth_error_app1; auto.
           apply nth_error_Some; congruence.
        -- constructor; auto. rewrite nth_error_app2 by lia. rewrite r_cells0, Nat.sub_diag. reflexivity.
  - (* ReadVar *)
    replace (i <? v_sp s) with (i <? length (vs_scope st)) by (rewrite (r_sp _ _ _ _ H); reflexivity).
    destruct (i <? length (vs_scope st)) eqn:Ei.
    2:{ apply Nat.ltb_ge in Ei. apply nth_error_None in Ei. rewrite Ei. exists s, caps, cv. auto. }
    apply Nat.ltb_lt in Ei. destruct (nth_error (vs_scope st) i) as [x|] eqn:Ex.
    2:{ apply nth_error_None in Ex. lia. }
    unfold slot. cbn [read_of snd fst]. rewrite (r_val _ _ _ _ H i x Ex).
    assert (Hxl : x < length (vs_values st)) by (exact (forall_nth _ _ _ _ (r_bound _ _ _ _ H) Ex)).
    destruct (nth_error (vs_values st) x) as [w|] eqn:Ew; [|apply nth_error_None in Ew; lia].
    exists s, caps, cv. auto.
  - (* WriteVar *)
    replace (i <? v_sp s) with (i <? length (vs_scope st)) by (rewrite (r_sp _ _ _ _ H); reflexivity).
    destruct (i <? length (vs_scope st)) eqn:Ei.
    2:{ apply Nat.ltb_ge in Ei. apply nth_error_None in Ei. rewrite Ei. exists s, caps, cv. auto. }
    apply Nat.ltb_lt in Ei. destruct (nth_error (vs_scope st) i) as [x|] eqn:Ex.
    2:{ apply nth_error_None in Ex. lia. }
    destruct (write_slot s caps st cv i x v H Ex) as [-> Hr].
    do 2 eexists. exists cv. split; [reflexivity|]. cbn [fst write_of]. split; [exact Hr|]. cbn; split; [auto|lia].
  - (* ReadCap *)
    pose proof (Forall2_nth _ _ _ (r_caps _ _ _ _ H) h) as Hc.
    destruct (nth_error caps h) as [c|], (nth_error (vs_caps st) h) as [x|]; try contradiction.
    2:{ exists s, caps, cv. auto. }
    cbn [read_of snd fst]. unfold up_get.
    assert (Hlt : c < length (v_heap s)) by (rewrite <- (r_cells _ _ _ _ H); apply nth_error_Some; congruence).
    destruct (nth_error (v_heap s) c) as [[l|w]|] eqn:Eh; [| |apply nth_error_None in Eh; lia].
    + pose proof (r_open _ _ _ _ H c l x Eh Hc) as Ho. unfold slot. rewrite (r_val _ _ _ _ H l x Ho).
      assert (Hxl : x < length (vs_values st)) by (exact (forall_nth _ _ _ _ (r_bound _ _ _ _ H) Ho)).
      destruct (nth_error (vs_values st) x) as [w|] eqn:Ew; [|apply nth_error_None in Ew; lia].
      exists s, caps, cv. auto.
    + destruct (r_closed _ _ _ _ H c w x Eh Hc) as [-> _]. exists s, caps, cv. auto.
  - (* WriteCap *)
    pose proof (Forall2_nth _ _ _ (r_caps _ _ _ _ H) h) as Hc.
    destruct (nth_error caps h) as [c|], (nth_error (vs_caps st) h) as [x|]; try contradiction.
    2:{ exists s, caps, cv. auto. }
    cbn [write_of snd fst]. unfold up_set.
    assert (Hlt : c < length (v_heap s)) by (rewrite <- (r_cells _ _ _ _ H); apply nth_error_Some; congruence).
    destruct (nth_error (v_heap s) c) as [[l|w]|] eqn:Eh; [| |apply nth_error_None in Eh; lia].
    + pose proof (r_open _ _ _ _ H c l x Eh Hc) as Ho.
      destruct (write_slot s caps st cv l x v H Ho) as [-> Hr].
      do 2 eexists. exists cv. split; [reflexivity|]. split; [exact Hr|]. cbn; split; [auto|lia].
    + do 2 eexists. exists cv. split; [reflexivity|].
      split; [exact (write_closed s caps st cv c w x v H Eh Hc)|]. cbn; split; [auto|lia].
  - (* LeaveOne *)
    cbn [exec fst snd]. destruct (v_sp s) as [|k] eqn:Ek; cbn [Nat.ltb Nat.leb].
    { exists s, caps, cv. pose proof (r_sp _ _ _ _ H) as Hs. rewrite Ek in Hs.
      destruct (vs_scope st) eqn:Esc; [|discriminate]. cbn [removelast].
      split; [reflexivity|]. split; [|split; [auto|rewrite Ek; auto]].
      destruct st; cbn in *; subst; exact H. }
    destruct (leave_rel s caps st cv k H) as (o' & h' & E & Hr).
    unfold abind, agets. rewrite Ek.
    replace (v_sp s - k) with 1 in E by lia. cbn [close_range] in E. unfold abind, aret in E.
    destruct (close_upvalues k s) as [[] s1| |]; try discriminate. injection E as ->.
    unfold pop. cbn [v_sp set_cells]. rewrite Ek. unfold slot. cbn [v_stack set_stack set_cells].
    assert (Hkl : k < length (v_stack s)).
    { rewrite (r_len _ _ _ _ H). pose proof (r_fit _ _ _ _ H). lia. }
    destruct (nth_error (v_stack s) k) as [w|] eqn:Ew; [|apply nth_error_None in Ew; lia].
    do 2 eexists. exists cv. split; [reflexivity|].
    rewrite Ek, Nat.min_l in Hr by lia. rewrite removelast_firstn_len.
    rewrite <- (r_sp _ _ _ _ H), Ek. replace (S k - 1) with k by lia.
    split; [exact Hr|]. cbn; split; [auto|lia].
  - (* LeaveAll *)
    destruct (leave_rel s caps st cv k H) as (o' & h' & E & Hr). rewrite E.
    do 2 eexists. exists cv. split; [reflexivity|]. cbn [v_stack v_sp set_cells].
    split; [exact Hr|]. cbn; split; [auto|lia].
Qed.

Lemma var_run_sim ops : forall s caps st cv, var_rel s caps st cv ->
  v_sp s + length ops <= o_stack_size (v_opts s) ->
  vm_var_run m hst s caps ops = Some (var_run st ops).
Proof.
  induction ops as [|o ops IH]; intros s caps st cv H Hlen; cbn [vm_var_run var_run]; auto.
  cbn [length] in Hlen.
  destruct (var_step_sim s caps st cv o H) as (s' & caps' & cv' & E & Hr & Ho & Hsp).
  { left; lia. }
  rewrite E. destruct (var_step st o) as [st' r]. cbn [fst snd] in *.
  rewrite (IH s' caps' st' cv' Hr) by (rewrite Ho; lia). reflexivity.
Qed.

Lemma vars_agree (s : vm D) ops :
  length (v_stack s) = o_stack_size (v_opts s) -> v_sp s = 0 -> v_opens s = [] -> v_heap s = [] ->
  length ops <= o_stack_size (v_opts s) ->
  vm_var_run m hst s [] ops = Some (var_run no_vars ops).
Proof.
  intros H1 H2 H3 H4 H5. apply var_run_sim with (cv := []); [|lia].
  constructor; cbn; rewrite ?H2, ?H3, ?H4; auto; try lia; try apply NoDup_nil.
  - intros [|j] x Hx; discriminate Hx.
  - intros [|c] l x Hx; discriminate Hx.
  - intros [|c] l x Hx; discriminate Hx.
  - intros c. split; [intros []|]. intros [l Hl]. destruct c; discriminate Hl.
Qed.
End Vars.
