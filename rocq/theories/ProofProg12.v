(** Texts of programs: bodies, operators, whole programs. *)
From Verif Require Import Base Float NumText Ast Parse SpecArith SpecParse SpecExpr SpecProg ProofParse ProofParse2 ProofParse3 ProofParse4 ProofExpr ProofProg ProofProg2 ProofProg3 ProofProg4 ProofProg5 ProofProg6 ProofProg7 ProofProg8 ProofProg9 ProofProg10 ProofProg11.
From Verif Require ProofExpr3.

(** ** What is added to a body *)
Scheme tr_min := Minimality for tree_of Sort Prop
  with ts_min := Minimality for trees_of Sort Prop
  with ct_min := Minimality for cases_tree Sort Prop
  with lr_min := Minimality for line_tree Sort Prop
  with bt_min := Minimality for body_tree Sort Prop.
Definition settled (n : node) : Prop := is_expression n = true /\ forall sp, settle n sp = n.
Definition body_done (f : bool) (nb : list nodeS) : Prop := f = false -> nb <> [] /\ forall sp, settle_body sp nb = nb.
Lemma settled_one n : settled n -> forall sp sp', settle_body sp [(n, sp')] = [(n, sp')].
Proof. intros [H1 H2] sp sp'. rewrite settle_body_eq. rewrite H1, H2. destruct n; auto. Qed.
Lemma expr_return n : is_expression n = true -> forall v, n <> NReturn v.
Proof. intros H v ->. discriminate. Qed.
Lemma trees_settle e n : tree_of e n -> settled n.
Proof.
  revert e n. apply (tr_min (fun _ n => settled n) (fun _ _ => True) (fun _ _ => True) (fun _ _ => True) (fun f _ nb => body_done f nb)); auto;
    try (intros; split; [reflexivity|]; intros ?; reflexivity).
  - intros b nb _ IH. split; [reflexivity|]. intros sp. rewrite settle_eq. f_equal. apply IH; auto.
  - intros c b nc nb _ _ _ IH. split; [reflexivity|]. intros sp. rewrite settle_eq. f_equal. apply IH; auto.
  - intros c b e nc nb ne _ _ _ IH _ IH2. split; [reflexivity|]. intros sp. rewrite settle_eq. f_equal; [apply IH; auto|]. f_equal. apply IH2; auto.
  - intros c b nc nb _ _ _ IH. split; [reflexivity|]. intros sp. rewrite settle_eq. f_equal. apply IH; auto.
  - intros x sp0 e b ne nb _ _ _ IH. split; [reflexivity|]. intros sp. rewrite settle_eq. f_equal. apply IH; auto.
  - intros xs nxs e b ne nb _ _ _ _ _ IH. split; [reflexivity|]. intros sp. rewrite settle_eq. f_equal. apply IH; auto.
  - intros x sp0 args b nargs nb _ _ _ IH. split; [reflexivity|]. intros sp. rewrite settle_eq. f_equal. apply IH; auto.
  - intros x sp0 args y sp' b nargs nb _ _ _ IH. split; [reflexivity|]. intros sp. rewrite settle_eq. f_equal. apply IH; auto.
  - intros x sp0 args ys nys b nargs nb _ _ _ _ _ IH. split; [reflexivity|]. intros sp. rewrite settle_eq. f_equal. apply IH; auto.
  - intros f sp E. subst f. split; [discriminate|]. intros sp'. reflexivity.
  - intros f e n sp Ht IH E. subst f. split; [discriminate|]. intros sp'. apply settled_one; auto.
  - intros f e [n sp] Ht _ _. split; [discriminate|]. intros sp'. cbn [fst] in Ht; inversion Ht; subst; reflexivity.
  - intros f s n sp Ht _ Hn E. subst f. split; [discriminate|]. intros sp'. rewrite settle_body_eq. destruct n; try contradiction; reflexivity.
  - intros f s s' l [n sp] nl _ _ _ IH E. destruct (IH E) as [Hne IH']. split; [discriminate|]. intros sp'. rewrite settle_body_eq.
    destruct nl; [congruence|]. rewrite IH'. reflexivity.
Qed.
Lemma line_body f s n sp sp' : line_tree s n -> body_tree f [s] (add_implicit_none [(n, sp)] sp' f).
Proof.
  intros H. cbn [add_implicit_none]. destruct H as [e n He|x sp0 op_ e n v|xs nxs e n|x sp0 e n|g sp0 ps nps b nb|e n He| |x sp0].
  - destruct (trees_settle e n He) as [H1 H2]. rewrite H1, H2. pose proof (expr_return n H1) as H3.
    destruct n; try (apply bt_value; auto; fail). exfalso. eapply H3; eauto.
  - apply (bt_statement f); [econstructor; eauto|exact Logic.I].
  - apply (bt_statement f); [econstructor; eauto|exact Logic.I].
  - apply (bt_statement f); [econstructor; eauto|exact Logic.I].
  - apply (bt_statement f); [econstructor; eauto|exact Logic.I].
  - apply bt_return. constructor; auto.
  - apply bt_return. constructor.
  - apply (bt_statement f); [econstructor; eauto|exact Logic.I].
Qed.
Lemma lines_body f l nl sp : Forall2 line_of l nl -> l <> [] -> body_tree f l (add_implicit_none nl sp f).
Proof.
  induction 1 as [|s [n sp0] l nl Hs Hl IH]; [congruence|]. intros _. destruct Hl as [|s' [n' sp'] l' nl' Hs' Hl'].
  - apply line_body. exact Hs.
  - cbn [add_implicit_none] in *. apply bt_more; auto. apply IH. discriminate.
Qed.

Section Atoms.
Context (o : oracle) (id : nat).
Notation pf := (o_f64_parse o).
Notation C := (climb o id).
Notation first_of := (first_of o id).
Notation full := (full o id).
Notation atom := (atom o id).
Notation reads := (reads o id).
Notation items := (items o id).
Notation blk := (blk o id).
Notation ifs := (ifs o id).
Notation stmts := (stmts o id).
Ltac go p tac := eapply (M_bind p); [tac|].
Ltac go_ws tac := eapply (M_bind (fun _ => ws_)); [apply M_ws; [auto|tac]|].
Ltac go_ws0 tac := eapply (M_bind (fun _ => ws_)); [apply M_ws0; tac|].
Ltac go_lit w := eapply (M_bind (fun _ => plit w)); [apply (M_lit w)|].
Ltac sym := apply clear_solid; repeat split; discriminate || reflexivity.
Notation sep := (plit (str ";") <|> ws_).

Lemma M_none_code s n : done_text s -> M (fun k => psep (C k 0) sep) (n, s) [] (n, s).
Proof.
  intros Hs. unfold psep. apply (M_right (fun k => psep1 (C k 0) sep)); [|apply M_ret]. unfold psep1.
  apply (F_bind (fun k => C k 0)). apply (no_more o id 0 [] s); [constructor|auto].
Qed.
Lemma M_code l t s n : stmts l t -> done_text s -> exists nl n' g', Forall2 line_of l nl /\ gap g' /\ M (fun k => psep (C k 0) sep) (n, t ++ s) nl (n', g' ++ s).
Proof.
  intros Hl Hs. destruct (Hl n s Hs) as (x & i & xs & n' & g' & TT & Hg' & HM & _ & HR). exists (x :: xs), n', g'. split; auto. split; auto.
  unfold psep. apply (M_left (fun k => psep1 (C k 0) sep)). unfold psep1. go (fun k => C k 0) ltac:(apply HM).
  go (fun k => pstar (sep >> C k 0)) ltac:(apply M_star, HR). apply M_ret.
Qed.
Lemma blk_none g : gap g -> blk [] g.
Proof.
  intros Hg f n s. eexists _, _. split; [|unfold r_block; go (fun _ : nat => ppos) ltac:(apply M_pos); go_lit (str "{"); go_ws ltac:(sym);
    go (fun k => psep (C k 0) sep) ltac:(apply M_none_code; cbn; tauto); go_ws0 ltac:(sym); go_lit (str "}"); 
    go (fun _ : nat => ppos) ltac:(apply M_pos); apply M_ret].
  cbn [add_implicit_none]. apply (bt_empty f).
Qed.
Lemma blk_lines g l t : gap g -> l <> [] -> stmts l t -> (forall s, clear (t ++ s)) -> blk l (g ++ t).
Proof.
  intros Hg Hne Hl Hc f n s. rewrite <- !app_assoc.
  destruct (M_code l t (str "}" ++ s) (n + bytes_in (str "{") + bytes_in g) Hl ltac:(cbn; tauto)) as (nl & n' & g' & TT & Hg' & HM).
  eexists _, _. split; [|unfold r_block; go (fun _ : nat => ppos) ltac:(apply M_pos); go_lit (str "{"); go_ws ltac:(apply Hc);
    go (fun k => psep (C k 0) sep) ltac:(apply HM); go_ws ltac:(sym); go_lit (str "}"); 
    go (fun _ : nat => ppos) ltac:(apply M_pos); apply M_ret].
  apply lines_body; auto.
Qed.

(** ** Operators, calls, indices *)
Lemma post_step k N mn n x n' s y i : pfirst (posts (C k) mn x) (n', s) = PMatch y i ->
  post_loop id (C k) (S N) mn n x (n', s) = post_loop id (C k) N mn n (y, mkSpan n (fst i) id) i.
Proof. intros E. cbn [post_loop]. rw E. reflexivity. Qed.
Lemma reads_step j a e t t' : j <= 9 -> (forall m mn, m <= j -> agree mn m -> forall n g s, follow (upto j e) g s -> (number_last e = true -> norange (g ++ s)) ->
    exists x N n' g' s', tree_of a (fst x) /\ length (g' ++ s') < N /\ gap g' /\
      ev (fun k => C (S k) mn (n, (t ++ t') ++ g ++ s) = post_loop id (C k) N mn n x (n', g' ++ s')) /\
      exists y n2 g2, tree_of e y /\ left g g2 /\ length (g2 ++ s) < length (g' ++ s') /\
        ev (fun k => pfirst (posts (C (S (S k))) mn x) (n', g' ++ s') = PMatch y (n2, g2 ++ s))) -> reads j e (t ++ t').
Proof.
  intros Hj H m mn n g s Hm _ Ha Hf Hr. destruct (H m mn Hm Ha n g s Hf Hr) as (x & N & n' & g' & s' & Tx & HN & Hg' & HE & y & n2 & g2 & Ty & Hl & HL & HP).
  destruct N as [|N]; [lia|]. exists (y, mkSpan n n2 id), N, n2, g2. split; auto. split; auto. split; [unfold rstring in *; lia|].
  apply ev_up, ev_up. apply ev_down, ev_down in HE. eapply ev_imp; [apply (ev_and _ _ HE HP)|]. cbn beta. intros k [E1 E2].
  rewrite E1. rewrite (post_step _ _ _ _ _ _ _ _ _ E2). reflexivity.
Qed.
Lemma upto_S j e : (forall x o e', e <> PAssign x o e') -> upto j e = S j.
Proof. intros H. destruct j; [|reflexivity]. destruct e; try reflexivity. exfalso. eapply H; eauto. Qed.
Lemma upto_one j e : 1 <= j -> upto j e = S j.
Proof. intros H. destruct j; [lia|reflexivity]. Qed.
Lemma spaced_first g s : spaced g -> exists c r, g ++ s = c :: r /\ In c [32; 9; 10]%N.
Proof. intros (c & r & -> & Hc & _). exists c, (r ++ s). auto. Qed.
Lemma reads_binary j op_ w l a b ta tb g1 g2 : binary_text op_ = Some (w, l) -> j <= l -> reads l a ta -> spelled pf (S l) b tb -> reads (S l) b tb -> 
  some g1 -> spaced g2 -> reads j (PBinary op_ a b) (ta ++ g1 ++ w ++ g2 ++ tb).
Proof.
  intros Hb Hj Ra Sb Rb H1 H2. pose proof (op_level _ _ _ Hb) as Hl. apply (reads_step j a); [lia|].
  intros m mn Hm Ha n g s Hf Hr. rewrite upto_S in Hf by discriminate. rewrite <- !app_assoc. pose proof H1 as [G1 _].
  destruct (spaced_first g2 (tb ++ g ++ s) H2) as (c & r & E & Hc).
  destruct (Ra m mn n g1 (w ++ g2 ++ tb ++ g ++ s)) as (x & N & n' & g' & Tx & Hlx & HN & HE); auto; try lia.
  { split; auto. left. split; [eapply op_apart; eauto|]. rewrite E. eapply en_op; eauto. rewrite upto_one; lia. }
  { intros _. apply no_range; auto; [rewrite E; eapply op_clear; eauto|].
    pose proof (op_not op_ w l (g2 ++ tb ++ g ++ s) Hb) as Hn. destruct (w ++ g2 ++ tb ++ g ++ s); [auto|apply Hn]. }
  pose proof (left_gap _ _ G1 Hlx) as Hg'.
  exists x, N, n', g', (w ++ g2 ++ tb ++ g ++ s). split; auto. split; auto. split; auto. split; auto.
  assert (Hmn : mn <= l + 8).
  { specialize (Ha l ltac:(lia)). destruct (Nat.leb_spec mn (l + 8)); auto. symmetry in Ha. apply Nat.leb_gt in Ha. lia. }
  destruct (reads_all o id (S l) b tb (S l) (S l + 8) (n' + bytes_in g' + bytes_in w + bytes_in g2) g s Rb) as (y & n2 & g3 & Ty & Hly & HM); auto; try lia.
  { rewrite upto_one; lia. }
  { apply agree_level. lia. }
  { eapply follow_more; eauto. lia. }
  exists (NBinary op_ x y), n2, g3. split; [constructor; auto|]. split; auto. split.
  { pose proof (left_len _ _ Hly). destruct (phrase_begins _ _ _ _ Sb) as (d & u & -> & _). rewrite !app_length. cbn [length]. lia. }
  apply ev_down, ev_down in HM. eapply ev_imp; [apply HM|]. cbn beta. intros k E2. apply (posts_op o id k _ _ _ _ _ _ l); auto. eapply phrase_clear; eauto.
Qed.

Lemma reads_range j a b ta tb g1 g2 : (j = 1 \/ (j = 0 /\ exists x y, a = PRange x y)) -> reads j a ta -> spelled pf 1 b tb -> reads 1 b tb -> 
  some g1 -> spaced g2 -> (number_last a = true -> ~ starts (fun c => digit_c c \/ c = 45%N) tb) ->
  reads 0 (PRange a b) (ta ++ g1 ++ str ":" ++ g2 ++ tb).
Proof.
  intros Hj Ra Sb Rb H1 H2 Hd. apply (reads_step 0 a); [lia|].
  intros m mn Hm Ha n g s Hf Hr. assert (m = 0) as -> by lia. rewrite upto_S in Hf by discriminate. rewrite <- !app_assoc. pose proof H1 as [G1 G1'].
  destruct (spaced_first g2 (tb ++ g ++ s) H2) as (c & r & E & Hc).
  destruct (Ra 0 mn n g1 (str ":" ++ g2 ++ tb ++ g ++ s)) as (x & N & n' & g' & Tx & Hlx & HN & HE); auto; try lia.
  { split; auto. left. split.
    - pose proof (gap_first g1 G1) as Hg. destruct g1 as [|d g1]; [congruence|]. cbn. split; [apply gap_char_word; auto|].
      intros ->. cbn in Hg. decompose [or] Hg; try discriminate; contradiction.
    - rewrite E. apply en_range; auto. destruct Hj as [->|(-> & u & v & ->)]; cbn; lia. }
  { intros En. apply colon_range; [auto|apply spaced_gap; auto|eapply phrase_begins; eauto|auto]. }
  pose proof (left_gap _ _ G1 Hlx) as Hg'.
  exists x, N, n', g', (str ":" ++ g2 ++ tb ++ g ++ s). split; auto. split; auto. split; auto. split; auto.
  assert (Hmn : mn <= 8).
  { specialize (Ha 0 ltac:(lia)). cbn in Ha. apply Nat.leb_le in Ha. auto. }
  destruct (reads_all o id 1 b tb 1 9 (n' + bytes_in g' + bytes_in (str ":") + bytes_in g2) g s Rb) as (y & n2 & g3 & Ty & Hly & HM); auto; try lia.
  { rewrite upto_one; lia. }
  { apply (agree_level 1). lia. }
  exists (NRange x y), n2, g3. split; [constructor; auto|]. split; auto. split.
  { pose proof (left_len _ _ Hly). rewrite !app_length. cbn. lia. }
  apply ev_down, ev_down in HM. eapply ev_imp; [apply HM|]. cbn beta. intros k E2. apply (posts_range o id k); auto. eapply phrase_clear; eauto.
Qed.
Lemma ws0_none c s n : is_simple_ws c = false -> ws0 (n, c :: s) = PMatch tt (n, c :: s).
Proof. intros H. unfold ws0, pbind, prun. cbn [prun_go fst snd]. rewrite H. reflexivity. Qed.
Lemma reads_call j f args t ta : reads 9 f t -> items args ta -> reads j (PCall f args) (t ++ str "(" ++ ta ++ str ")").
Proof.
  intros Rf Hi m mn n0 g0 s0 Hm Hj. revert Hm Hj. intros Hm Hj. 
  assert (R : reads j (PCall f args) (t ++ str "(" ++ ta ++ str ")")); [|apply (R m mn n0 g0 s0 Hm Hj)].
  apply (reads_step j f); auto. clear m mn n0 g0 s0 Hm. intros m mn Hm Ha n g s Hf Hr. rewrite <- !app_assoc.
  destruct (Rf m mn n [] (str "(" ++ ta ++ str ")" ++ g ++ s)) as (x & N & n' & g' & Tx & Hlx & HN & HE); auto; try lia.
  { split; [constructor|]. right. split; [cbn; lia|]. split; auto. left. reflexivity. }
  { intros _. apply (no_range []); [constructor|sym|discriminate]. }
  assert (g' = []) as -> by (destruct Hlx; auto).
  exists x, N, n', [], (str "(" ++ ta ++ str ")" ++ g ++ s). split; auto. split; auto. split; [constructor|]. split; auto.
  destruct (M_args o id args ta (g ++ s) n' Hi) as (nl & n2 & Tn & HM).
  exists (NCall x nl), n2, g. split; [constructor; auto|]. split; [left; auto|]. split.
  { rewrite !app_length. cbn. lia. }
  apply ev_down, ev_down in HM. eapply ev_imp; [apply HM|]. cbn beta. intros k E2. rewrite posts_eq, first_app.
  2: { apply entries_open. left. reflexivity. }
  unfold brackets. apply pfirst_hit. eapply eq_trans; [exact (pbind_m _ _ _ _ _ (ws0_none 40 _ _ eq_refl))|]. eapply eq_trans; [exact (pbind_m _ _ _ _ _ E2)|]. reflexivity.
Qed.
Lemma reads_index j a i ta ti g1 g2 : reads 9 a ta -> spelled pf 0 i ti -> full i ti -> gap g1 -> gap g2 -> reads j (PIndex a i) (ta ++ str "[" ++ g1 ++ ti ++ g2 ++ str "]").
Proof.
  intros Rf Si Hi H1 H2 m mn n0 g0 s0 Hm Hj. revert Hm Hj. intros Hm Hj. 
  assert (R : reads j (PIndex a i) (ta ++ str "[" ++ g1 ++ ti ++ g2 ++ str "]")); [|apply (R m mn n0 g0 s0 Hm Hj)].
  apply (reads_step j a); auto. clear m mn n0 g0 s0 Hm. intros m mn Hm Ha n g s Hf Hr. rewrite <- !app_assoc.
  destruct (Rf m mn n [] (str "[" ++ g1 ++ ti ++ g2 ++ str "]" ++ g ++ s)) as (x & N & n' & g' & Tx & Hlx & HN & HE); auto; try lia.
  { split; [constructor|]. right. split; [cbn; lia|]. split; auto. right. reflexivity. }
  { intros _. apply (no_range []); [constructor|sym|discriminate]. }
  assert (g' = []) as -> by (destruct Hlx; auto).
  exists x, N, n', [], (str "[" ++ g1 ++ ti ++ g2 ++ str "]" ++ g ++ s). split; auto. split; auto. split; [constructor|]. split; auto.
  destruct (full_close o id i ti 93 g2 (g ++ s) (n' + bytes_in (str "[") + bytes_in g1) Hi H2 ltac:(cbn; tauto)) as (y & n2 & Ty & HM).
  exists (NIndexGet x y), (n2 + bytes_in (str "]")), g. split; [constructor; auto|]. split; [left; auto|]. split.
  { rewrite !app_length. cbn. lia. }
  assert (HB : M (fun k => ws_ >> plit (str "[") >> ws_ >> on i <- r_node (C k); ws_ >> plit (str "]") >> pret (NIndexGet x i))
                 (n', str "[" ++ g1 ++ ti ++ g2 ++ str "]" ++ g ++ s) (NIndexGet x y) (n2 + bytes_in (str "]"), g ++ s)).
  { go_ws0 ltac:(sym). go_lit (str "["). go_ws ltac:(eapply phrase_clear; eauto). unfold r_node.
    apply (HM _ (fun _ l => plit (str "]") >> pret (NIndexGet x l))). go_lit (str "]"). apply M_ret. }
  apply ev_down, ev_down in HB. eapply ev_imp; [apply HB|]. cbn beta. intros k E2. rewrite posts_eq, first_app.
  2: { apply entries_open. right. reflexivity. }
  unfold brackets. rewrite pfirst_skip.
  2: { eapply eq_trans; [exact (pbind_m _ _ _ _ _ (ws0_none 91 _ _ eq_refl))|]. reflexivity. }
  apply pfirst_hit. exact E2.
Qed.
Lemma reads_assign x op_ w e t g1 g2 : a_name x -> assign_sign op_ = Some w -> spelled pf 0 e t -> full e t -> gap g1 -> gap g2 ->
  reads 0 (PAssign x op_ e) (x ++ g1 ++ w ++ str "=" ++ g2 ++ t).
Proof.
  intros Hx Hw Se He H1 H2 m mn n g s Hm Hj Ha Hf Hr. cbn [upto] in Hf.
  destruct (atom_assign o id x op_ w e t g1 g2 n g s Hx Hw Se He H1 H2 Hf) as (nd & n' & g' & Tn & Hl & HM).
  exists (nd, mkSpan n n' id), (S (length (g' ++ s))), n', g'. split; auto. split; auto. split; [lia|].
  eapply ev_imp; [apply HM|]. cbn beta. intros k E. apply climb_first. exact E.
Qed.

(** ** Everything *)
Lemma lines_start l t s : spelled_lines pf l t -> clear (t ++ s).
Proof.
  assert (HL : forall l t s, spelled_line pf l t -> clear (t ++ s)).
  { clear. intros l t s H. destruct H; try (eapply phrase_clear; eauto; fail); rewrite <- ?app_assoc; sym. }
  intros H. destruct H; rewrite <- ?app_assoc; eapply HL; eauto.
Qed.
Lemma line_some l t : spelled_line pf l t -> t <> [].
Proof.
  intros H. destruct H as [e t H| | | | | | |]; try discriminate. destruct (phrase_begins _ _ _ _ H) as (c & r & -> & _). discriminate.
Qed.
Lemma values_some vs tv : spelled_args pf vs tv -> vs <> [] -> tv <> [].
Proof.
  intros H Hn. destruct (args_first _ _ _ H Hn) as (g & t1 & -> & _ & (c & r & -> & _)). intros E. apply (f_equal (@length N)) in E.
  rewrite app_length in E. cbn in E. lia.
Qed.
Theorem all_programs : (forall k e t, spelled pf k e t -> reads k e t) /\ (forall l t, spelled_args pf l t -> items l t) /\ (forall e t, spelled_if pf e t -> ifs e t) /\
  (forall e t, spelled_else pf e t -> elses o id e t) /\ (forall cs t, spelled_cases pf cs t -> cases o id cs t) /\ (forall d t, spelled_default pf d t -> default o id d t) /\
  (forall xs t, spelled_as pf xs t -> True) /\ (forall l t, spelled_line pf l t -> stmt o id l t) /\ (forall l t, spelled_lines pf l t -> stmts l t) /\ (forall b t, spelled_body pf b t -> blk b t).
Proof.
  pose proof (spelled_all pf reads items ifs (elses o id) (cases o id) (default o id) (fun _ _ => True) (stmt o id) stmts blk) as IND.
  apply IND; clear IND.
  - intros k x Hx. apply atom_reads, atom_name; auto.
  - intros k l t Hl Hs. apply atom_reads, atom_literal; auto.
  - intros k l t Sl Hl Hn. apply atom_reads, atom_array; auto.
  - intros k a b ta tb g1 g2 g3 g4 Sa Ha Sb Hb H1 H2 H3 H4 Hn. apply atom_reads, atom_pair; auto; apply reads_full; auto.
  - intros k e t g g' Se He Hg Hg'. apply atom_reads, atom_paren; auto; apply reads_full; auto.
  - intros j a b ta tb g g' Hj Sa Ha Sb Hb Hg Hg' Hn. apply (reads_range j); auto.
  - intros k op_ w l a b ta tb g g' Hb Hk Sa Ha Sb Hb' Hg Hg'. apply (reads_binary k op_ w l); auto.
  - intros k op_ w a t g Hw Hk Sa Ha Hg Hd. apply signed_reads; auto. eapply signed_unary; eauto.
  - intros k l t Hk Hl Hc. apply signed_reads; auto. apply signed_negative; auto.
  - intros k f args t ta Sf Hf Sa Ha. apply reads_call; auto.
  - intros k x args ta Hx Sa Ha. apply atom_reads, atom_builtin; auto.
  - intros k a i ta ti g g' Sa Ha Si Hi Hg Hg'. apply reads_index; auto; apply reads_full; auto.
  - intros x op_ w e t g g' Hx Hw Se He Hg Hg'. apply reads_assign; auto; apply reads_full; auto.
  - intros k ps b tp tb g g' Hp Sb Hb Hg Hg'. apply atom_reads, atom_lambda; auto.
  - intros k b tb Sb Hb. apply atom_reads, atom_block; auto.
  - intros k e t Se He. apply atom_reads, atom_if; auto.
  - intros k v cs d tv tc td g g' Sv Hv Sc Hc Sd Hd Hg Hg'. apply atom_reads, atom_switch; auto; apply reads_full; auto.
  - intros k c b tc tb g g' Sc Hc Sb Hb Hg Hg'. apply atom_reads, atom_while; auto; apply reads_full; auto.
  - intros k xs e b tx te tb g1 g2 g3 Hx Hn Hw Se He Sb Hb H1 H2 H3. apply atom_reads, atom_for; auto; apply reads_full; auto.
  - intros k x args xs b ta tx tb g1 g2 g3 g4 Hx Sa Ha Sx _ Sb Hb H1 H2 H3 H4. apply atom_reads, atom_with; auto.
  - intros g Hg c r Hc. apply li_none; auto.
  - intros e t g g' Se He Hg Hg' c r Hc. apply li_last; auto. 2: exact Logic.I. apply full_item; auto. apply reads_full; auto. eapply phrase_begins; eauto.
  - intros e e' l t t' g g' Se He Sl Hl Hg Hg' c r Hc. apply li_more; auto. apply full_item; auto. apply reads_full; auto. eapply phrase_begins; eauto.
  - intros c b e tc tb te g g' Sc Hc Sb Hb Se He Hg Hg'. apply if_reads; auto; apply reads_full; auto.
  - apply else_none.
  - intros b tb g g' Sb Hb Hg Hg'. apply else_block; auto.
  - intros e t g g' Se He Hg Hg'. apply else_if; auto.
  - intros g Hg. apply cases_none; auto.
  - intros vs b cs tv tb tc g Hn Sv Hv Hw Sb Hb Sc Hc Hg. apply cases_more; auto. eapply values_some; eauto.
  - apply default_none.
  - intros b tb g g' Sb Hb Hg Hg'. apply default_some; auto.
  - auto.
  - auto.
  - intros e t Se He. apply stmt_value. apply reads_full; auto.
  - intros x op_ w e t g1 g2 g3 Hx Hw Se He H1 H2 H3. apply stmt_let; auto; apply reads_full; auto.
  - intros xs e tx t g Hx Hn Hw Se He Hg. apply stmt_lets; auto; apply reads_full; auto.
  - intros x e t g1 g2 g3 Hx Se He H1 H2 H3. apply stmt_external; auto; apply reads_full; auto.
  - intros f ps b tp tb g1 g2 g3 Hf Hp Sb Hb H1 H2 H3. apply stmt_function; auto.
  - intros e t g Se He Hg Hn. apply stmt_return; auto; apply reads_full; auto.
  - apply stmt_stop.
  - intros s g Hs Hg. apply stmt_include; auto.
  - intros l t g Sl Hl Hg. apply stmts_last; auto. eapply line_some; eauto.
  - intros s s' l t t' g Hs Sl Hl Hg Hn Sls Hls. apply stmts_more; auto. eapply line_some; eauto.
  - intros g Hg. apply blk_none; auto.
  - intros g l t Hg Sl Hl. apply blk_lines; auto.
    + destruct Sl; discriminate.
    + intros s. eapply lines_start; eauto.
Qed.
End Atoms.
