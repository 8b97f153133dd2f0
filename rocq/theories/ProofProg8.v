(** Texts of programs: what each kind of operand is read as. *)
From Verif Require Import Base Float NumText Ast Parse SpecArith SpecParse SpecExpr SpecProg ProofParse ProofParse2 ProofParse3 ProofParse4 ProofExpr ProofProg ProofProg2 ProofProg3 ProofProg4 ProofProg5 ProofProg6 ProofProg7.
From Verif Require ProofExpr3.

Section Atoms.
Context (o : oracle) (id : nat).
Notation pf := (o_f64_parse o).
Notation LR := (r_literal o).
Notation C := (climb o id).
Notation first_of := (first_of o id).
Notation back := (back o id).
Notation late := (late o id).
Notation full := (full o id).
Notation atom := (atom o id).
Notation reads := (reads o id).
Notation items := (items o id).
Notation blk := (blk o id).
Notation ifs := (ifs o id).
Ltac atoms := unfold ProofProg6.first_of, ProofProg6.back, ProofProg6.late, prefix_atoms; cbn [app prefixes map fst snd skipn].
Ltac skip_ff := apply M_skip; [ff|].
Ltac go p tac := eapply (M_bind p); [tac|].
Ltac go_ws tac := eapply (M_bind (fun _ => ws_)); [apply M_ws; [auto|tac]|].
Ltac go_ws0 tac := eapply (M_bind (fun _ => ws_)); [apply M_ws0; tac|].
Ltac go_lit w := eapply (M_bind (fun _ => plit w)); [apply (M_lit w)|].
Ltac sym := apply clear_solid; repeat split; discriminate || reflexivity.

(** ** Names and literals *)
Lemma atom_name x : a_name x -> atom (PName x) x.
Proof.
  intros [Hx _] n g s Hf _. exists (NIdentifier x), (n + length x), g. split; [constructor|]. split; [left; auto|]. apply M_name; auto.
Qed.
Lemma not_sign_digit c : digit_c c -> ~ In c (str "!-~").
Proof. intros H Hi. unfold digit_c in H. each Hi; lia. Qed.
Lemma digit_front c : digit_c c -> solid c /\ is_start c = false.
Proof. intros H. split; [apply digit_solid; unfold is_digit, digit_c in *; lia|]. unfold digit_c in H. unfold is_start, is_lower, is_upper. lia. Qed.
Lemma float_no_range t rest n : float_text t -> F (fun _ => range_atom) (n, t ++ rest).
Proof.
  intros (i & f & -> & Hn & Hi & _). destruct (digits_numeral i Hi Hn) as [z Hz]. rewrite <- !app_assoc.
  destruct (int32_some z i n (str "." ++ f ++ rest) (it_decimal _ _ Hz) ltac:(reflexivity)) as [v Ev].
  eapply (F_bind2 (fun _ => r_INT32)); [apply M_k, Ev|]. apply F_k. apply (no_range [] (str "." ++ f ++ rest)); [constructor| |].
  - intros m. destruct f; reflexivity.
  - discriminate.
Qed.
Lemma integer_no_range z t rest n : integer_text z t -> breaks rest -> norange rest -> F (fun _ => range_atom) (n, t ++ rest).
Proof.
  intros Ht Hb Hr. destruct (int32_some z t n rest Ht Hb) as [v Ev].
  eapply (F_bind2 (fun _ => r_INT32)); [apply M_k, Ev|]. apply F_k, Hr.
Qed.
Lemma atom_literal l t : literal_text pf l t -> (starts (fun c => c = 45%N) t -> exists a b, l = LRange a b) -> atom (PLit l) t.
Proof.
  intros Hl Hneg n g s Hf Hr. pose proof (follow_apart _ _ _ Hf) as Ha. pose proof (apart_breaks _ Ha) as Hb.
  assert (HL : exists n', M LR (n, t ++ g ++ s) l (n', g ++ s)).
  { apply (proj1 (all_literals o) l t Hl (g ++ s) n Ha). intros Hi. apply Hr. destruct l; try contradiction. reflexivity. }
  destruct HL as [n' HM].
  cut (exists n2, M first_of (n, t ++ g ++ s) (NLiteral l) (n2, g ++ s)).
  { intros [n2 H]. exists (NLiteral l), n2, g. split; [constructor|]. split; [left; auto|]. exact H. }
  assert (SY : forall c r, t = c :: r -> In c (str "#([" ++ [34%N]) -> exists n2, M first_of (n, t ++ g ++ s) (NLiteral l) (n2, g ++ s)).
  { intros c r -> Hc. exists n'. cbn [app]. apply M_front.
    - each Hc; repeat split; discriminate || reflexivity.
    - each Hc; reflexivity.
    - apply M_literal; auto.
      + intros Hi. each Hc; cbn in Hi; decompose [or] Hi; try discriminate; contradiction.
      + apply no_int. unfold digit_c. each Hc; lia. }
  assert (WD : In t [str "true"; str "false"; str "none"] -> exists n2, M first_of (n, t ++ g ++ s) (NLiteral l) (n2, g ++ s)).
  { intros Ht. exists n'. clear Hl Hneg SY. 
    assert (HI : r_IDENT (n, t ++ g ++ s) = PFail).
    { apply ident_kw; auto; each Ht; try reflexivity; repeat constructor. }
    assert (HA : F (word_atom o id) (n, t ++ g ++ s)).
    { apply (F_bind (fun _ => ident id)), F_k. unfold ident, sp_of. rewrite (pbind_m _ _ _ n (n, t ++ g ++ s)) by reflexivity. apply pbind_f, HI. }
    unfold word_atom in HA.
    each Ht; atoms; do 4 skip_ff; (apply M_skip; [exact HA|]); do 12 skip_ff; apply M_hit; (eapply (M_bind LR); [apply HM|]); apply M_ret. }
  inversion Hl; subst.
  - apply WD; cbn; tauto.
  - apply WD; cbn; tauto.
  - apply WD; cbn; tauto.
  - match goal with H : integer_text z t |- _ => rename H into Hz end.
    destruct (integer_first z t Hz) as (c & r & -> & Hc).
    assert (Hd : digit_c c).
    { destruct Hc as [Hc| ->]; auto. destruct (Hneg eq_refl) as (? & ? & ?). discriminate. }
    exists n'. destruct (digit_front c Hd). cbn [app]. apply M_front; auto. apply M_literal; auto; [apply not_sign_digit; auto|].
    change (c :: r ++ g ++ s) with ((c :: r) ++ g ++ s). eapply integer_no_range; eauto.
  - match goal with H : float_text t |- _ => rename H into Hz end.
    destruct (float_first t Hz) as (c & r & E & Hd). exists n'. destruct (digit_front c Hd).
    pose proof (float_no_range t (g ++ s) n Hz) as HN. rewrite E in HN, HM |- *. cbn [app] in *.
    apply M_front; auto. apply M_literal; auto. apply not_sign_digit; auto.
  - destruct (Hneg eq_refl) as (? & ? & ?). discriminate.
  - match goal with H1 : integer_text a ta, H2 : integer_text b tb |- _ => rename H1 into Hta; rename H2 into Htb end.
    destruct (integer_first a ta Hta) as (c & r & E & Hc).
    rewrite <- !app_assoc.
    assert (HM2 : exists n2, M (fun _ => range_atom) (n, ta ++ g0 ++ str ":" ++ g' ++ tb ++ g ++ s) (NLiteral (LRange a b)) (n2, g ++ s)).
    { eexists. go (fun _ : nat => r_INT32) ltac:(apply M_k, (int32_reads a); [auto|auto|apply gap_breaks; [auto|reflexivity]]).
      go_ws ltac:(apply colon_clear). go_lit (str ":"). go_ws ltac:(eapply integer_clear; eauto).
      go (fun _ : nat => r_INT32) ltac:(apply M_k, (int32_reads b); auto). apply M_ret. }
    destruct HM2 as [n2 HM2]. exists n2. rewrite E in HM2 |- *. cbn [app] in *. apply M_front.
    + apply number_solid; auto.
    + unfold number_char, digit_c in Hc. unfold is_start, is_lower, is_upper. lia.
    + atoms. apply M_hit. exact HM2.
  - match goal with H : colour_text l t |- _ => destruct H end; eapply SY; cbn; eauto; tauto.
  - eapply SY; [reflexivity|]. cbn; tauto.
  - eapply SY; [reflexivity|]. cbn; tauto.
  - eapply SY; [reflexivity|]. cbn; tauto.
Qed.
(** ** Brackets *)
Lemma close_tl c r : In c (str ")]{}") -> clear (c :: r) /\ ~ starts (fun c => c = 44%N) (c :: r).
Proof. intros H. split; [each H; sym|]. each H; discriminate. Qed.
Lemma trees l nl : Forall2 node_of l nl -> trees_of l nl.
Proof. induction 1; constructor; auto. Qed.
Lemma M_items l t c r n : items l t -> In c (str ")]") ->
  exists nl n', trees_of l nl /\ forall B (q : nat -> list nodeS -> P B) x j, M (fun k => q k nl) (n', c :: r) x j ->
    M (fun k => ws_ >> on a <- commasep (C k 0); ws_ >> q k a) (n, t ++ c :: r) x j.
Proof.
  intros Hl Hc. destruct (ws_commasep node_of (X0 o id) all (c :: r) l t n) as (nl & n' & HT & HM).
  - apply close_tl. cbn in *; tauto.
  - apply close_tl. cbn in *; tauto.
  - apply Hl. cbn in *; tauto.
  - intros m. apply (no_more o id 0 [] (c :: r)); [constructor|]. cbn in *; tauto.
  - exists nl, n'. split; [apply trees; auto|]. exact HM.
Qed.
Lemma M_args l t s n : items l t -> exists nl n', trees_of l nl /\ M (fun k => args_ (C k)) (n, str "(" ++ t ++ str ")" ++ s) nl (n', s).
Proof.
  intros Hl. destruct (M_items l t 41 s (n + bytes_in (str "(")) Hl ltac:(cbn; tauto)) as (nl & n' & HT & HM).
  exists nl, (n' + bytes_in (str ")")). split; auto. unfold args_. go_lit (str "(").
  apply (HM _ (fun k a => plit (str ")") >> pret a)). go_lit (str ")"). apply M_ret.
Qed.
Lemma atom_array l t : spelled_args pf l t -> items l t -> ~ (exists ls, literals_text pf ls t) -> atom (PArray l) (str "[" ++ t ++ str "]").
Proof.
  intros Hl HI Hno n g s Hf _. destruct (M_items l t 93 (g ++ s) (n + bytes_in (str "[")) HI ltac:(cbn; tauto)) as (nl & n' & HT & HM).
  exists (NArray nl), (n' + bytes_in (str "]")), g. split; [constructor; auto|]. split; [left; auto|].
  pose proof (lp_array o l t Hl (proj2 (all_lp o) l t Hl) Hno (g ++ s) n) as HF. rewrite <- !app_assoc in *.
  apply (M_front o id 91); [repeat split; discriminate || reflexivity|reflexivity|].
  apply M_late; [cbn; intros Hi; decompose [or] Hi; try discriminate; contradiction|ff|exact HF|].
  atoms. apply M_hit. go_lit (str "["). apply (HM _ (fun k e => plit (str "]") >> pret (NArray e))). go_lit (str "]"). apply M_ret.
Qed.
Lemma full_close e t c g s n : full e t -> gap g -> In c (str ",)]}{") -> exists x n', tree_of e (fst x) /\ 
  forall B (q : nat -> nodeS -> P B) y j, M (fun k => q k x) (n', c :: s) y j -> M (fun k => on l <- C k 0; ws_ >> q k l) (n, t ++ g ++ c :: s) y j.
Proof.
  intros He Hg Hc. destruct (He 0 n g (c :: s) ltac:(lia) (follow_close g c s Hg Hc)) as (x & n' & g' & Ht & Hl & HM).
  exists x, (n' + bytes_in g'). split; auto. intros B q y j H. go (fun k => C k 0) ltac:(apply HM).
  eapply (M_bind (fun _ => ws_)); [apply M_ws; [eapply left_gap; eauto|]|exact H]. each Hc; sym.
Qed.
Lemma paren_front n s nd j : F LR (n, str "(" ++ s) -> M late (n, str "(" ++ s) nd j -> M first_of (n, str "(" ++ s) nd j.
Proof.
  intros HF HM. apply (M_front o id 40); [repeat split; discriminate || reflexivity|reflexivity|].
  apply M_late; [cbn; intros Hi; decompose [or] Hi; try discriminate; contradiction|ff|exact HF|exact HM].
Qed.
Lemma atom_pair a b ta tb g1 g2 g3 g4 : spelled pf 0 a ta -> full a ta -> spelled pf 0 b tb -> full b tb -> 
  gap g1 -> gap g2 -> gap g3 -> gap g4 -> ~ ((exists l, literal_text pf l ta) /\ (exists l, literal_text pf l tb)) ->
  atom (PPair a b) (str "(" ++ g1 ++ ta ++ g2 ++ str "," ++ g3 ++ tb ++ g4 ++ str ")").
Proof.
  intros Sa Ha Sb Hb H1 H2 H3 H4 Hno n g s Hf _.
  pose proof (lp_pair o a b ta tb g1 g2 g3 g4 Sa (proj1 (all_lp o) _ _ _ Sa) Sb (proj1 (all_lp o) _ _ _ Sb) H1 H2 H3 H4 Hno (g ++ s) n) as HF.
  rewrite <- !app_assoc in *.
  destruct (full_close a ta 44 g2 (g3 ++ tb ++ g4 ++ str ")" ++ g ++ s) (n + bytes_in (str "(") + bytes_in g1) Ha H2 ltac:(cbn; tauto)) as (x & n1 & Tx & Mx).
  destruct (full_close b tb 41 g4 (g ++ s) (n1 + bytes_in (str ",") + bytes_in g3) Hb H4 ltac:(cbn; tauto)) as (y & n2 & Ty & My).
  exists (NPair x y), (n2 + bytes_in (str ")")), g. split; [constructor; auto|]. split; [left; auto|].
  apply paren_front; auto. atoms. skip_ff. apply M_hit. go_lit (str "("). go_ws ltac:(eapply phrase_clear; eauto).
  apply (Mx _ (fun k l => plit (str ",") >> ws_ >> on r <- C k 0; ws_ >> plit (str ")") >> pret (NPair l r))).
  go_lit (str ","). go_ws ltac:(eapply phrase_clear; eauto).
  apply (My _ (fun k r => plit (str ")") >> pret (NPair x r))). go_lit (str ")"). apply M_ret.
Qed.
Lemma atom_paren e t g1 g2 : spelled pf 0 e t -> full e t -> gap g1 -> gap g2 -> atom e (str "(" ++ g1 ++ t ++ g2 ++ str ")").
Proof.
  intros Se He H1 H2 n g s Hf _.
  pose proof (lp_paren o e t g1 g2 Se (proj1 (all_lp o) _ _ _ Se) H1 H2 (g ++ s) n) as HF.
  rewrite <- !app_assoc in *.
  destruct (full_close e t 41 g2 (g ++ s) (n + bytes_in (str "(") + bytes_in g1) He H2 ltac:(cbn; tauto)) as (x & n1 & Tx & Mx).
  exists (fst x), (n1 + bytes_in (str ")")), g. split; auto. split; [left; auto|].
  apply paren_front; auto. atoms. skip_ff. apply M_skip.
  { eapply (F_bind2 (fun _ => plit (str "("))); [apply (M_lit (str "("))|].
    eapply (F_bind2 (fun _ => ws_)); [apply M_ws; auto; eapply phrase_clear; eauto|].
    destruct (He 0 (n + bytes_in (str "(") + bytes_in g1) g2 (str ")" ++ g ++ s) ltac:(lia) (follow_close g2 41 _ H2 ltac:(cbn; tauto))) as (y & n' & g' & _ & Hl & HM).
    eapply (F_bind2 (fun k => C k 0)); [apply HM|]. eapply (F_bind2 (fun _ => ws_)); [apply M_ws; [eapply left_gap; eauto|sym]|]. ff. }
  apply M_skip.
  { eapply (F_bind2 (fun _ => plit (str "("))); [apply (M_lit (str "("))|].
    apply (no_pair o (fun k l _ => ws_ >> on r <- LR k; ws_ >> plit (str ")") >> pret (NLiteral (LPair l r))) e); auto. apply (proj1 (all_lp o) _ _ _ Se). }
  do 2 skip_ff. apply M_hit. go_lit (str "("). go_ws ltac:(eapply phrase_clear; eauto).
  apply (Mx _ (fun k l => plit (str ")") >> pret (fst l))). go_lit (str ")"). apply M_ret.
Qed.
Lemma atom_builtin x args ta : a_name x -> items args ta -> atom (PBuiltin x args) (str "@" ++ x ++ str "(" ++ ta ++ str ")").
Proof.
  intros Hx HI n g s Hf _. rewrite <- !app_assoc.
  destruct (M_args args ta (g ++ s) (n + bytes_in (str "@") + length x) HI) as (nl & n' & HT & HM).
  eexists _, n', g. split; [apply tr_builtin; eauto|]. split; [left; auto|].
  apply (M_front o id 64); [repeat split; discriminate || reflexivity|reflexivity|].
  apply M_late; [cbn; intros Hi; decompose [or] Hi; try discriminate; contradiction|ff|ff|].
  atoms. do 3 skip_ff. apply M_hit. go_lit (str "@").
  go (fun _ : nat => ident id) ltac:(apply M_named; [auto|reflexivity]).
  eapply (M_bind (fun _ => ws0)); [apply M_k; reflexivity|]. go (fun k => args_ (C k)) ltac:(apply HM). apply M_ret.
Qed.
Lemma atom_block b tb : blk b tb -> atom (PBlock b) (str "{" ++ tb ++ str "}").
Proof.
  intros Hb n g s Hf _. rewrite <- !app_assoc. destruct (Hb false n (g ++ s)) as (nb & n' & HT & HM).
  exists (NBlock nb), n', g. split; [constructor; auto|]. split; [left; auto|].
  apply (M_front o id 123); [repeat split; discriminate || reflexivity|reflexivity|].
  apply M_late; [cbn; intros Hi; decompose [or] Hi; try discriminate; contradiction|ff|ff|].
  atoms. do 6 skip_ff. apply M_hit. go (fun k => r_block id (C k) false) ltac:(apply HM). apply M_ret.
Qed.
(** ** Signs *)
Lemma sub8 e t n g s j : reads 8 e t -> j <= 9 -> follow j g s -> (number_last e = true -> norange (g ++ s)) ->
  exists x n' g', tree_of e (fst x) /\ left g g' /\ M (fun k => C k 17) (n, t ++ g ++ s) x (n', g' ++ s).
Proof.
  intros He Hj Hf Hr. apply (reads_all o id 8 e t 8); [auto|lia|lia|destruct e; cbn; lia|apply agree_17| |auto].
  destruct Hf as [Hg [[Ha Hen]|(H & _)]]; [|lia]. split; auto. left. split; auto.
  destruct (Nat.le_gt_cases j 8); [eapply ends_more; eauto|]. apply (ends_8 j); [lia|auto].
Qed.
(** Everything of a sign and its operand but the level. *)
Definition signed (e : phrase) (t : rstring) : Prop := forall j n g s, j <= 9 -> follow j g s -> (number_last e = true -> norange (g ++ s)) ->
  exists nd n' g', tree_of e nd /\ left g g' /\ M first_of (n, t ++ g ++ s) nd (n', g' ++ s).
Lemma signed_reads j e t : j <= 8 -> signed e t -> reads j e t.
Proof.
  intros H8 H m mn n g s Hm Hj Ha Hf Hr. destruct (H (upto j e) n g s) as (nd & n' & g' & Ht & Hl & HM); auto.
  { pose proof (upto_le j e). lia. }
  exists (nd, mkSpan n n' id), (S (length (g' ++ s))), n', g'. split; auto. split; auto. split; [lia|].
  eapply ev_imp; [apply HM|]. cbn beta. intros k E. apply climb_first; auto.
Qed.
Lemma signed_unary op_ w a t g0 : unary_text op_ = Some w -> spelled pf 8 a t -> reads 8 a t -> gap g0 ->
  (op_ = ONeg -> g0 = [] -> ~ starts digit_c t) -> signed (PUnary op_ a) (w ++ g0 ++ t).
Proof.
  intros Hw Sa Ha Hg Hd j n g s Hj Hf Hr. rewrite <- !app_assoc.
  destruct (sub8 a t (n + bytes_in w + bytes_in g0) g s j Ha Hj Hf Hr) as (x & n' & g' & Tx & Hl & HM).
  exists (NUnary op_ x), n', g'. split; [constructor; auto|]. split; auto.
  assert (HM2 : M (fun k => plit w >> ws_ >> on e <- C k 17; pret (NUnary op_ e)) (n, w ++ g0 ++ t ++ g ++ s) (NUnary op_ x) (n', g' ++ s)).
  { go_lit w. go_ws ltac:(eapply phrase_clear; eauto). go (fun k => C k 17) ltac:(apply HM). apply M_ret. }
  destruct op_; cbn in Hw; try discriminate; injection Hw as <-.
  - apply (M_front o id 33); [repeat split; discriminate || reflexivity|reflexivity|]. atoms. skip_ff. apply M_hit. exact HM2.
  - apply (M_front o id 45); [repeat split; discriminate || reflexivity|reflexivity|].
    destruct (minus_next pf a t g0 (g ++ s) Sa Hg (Hd eq_refl)) as (c & r & E & Hc).
    atoms. apply M_skip.
    { apply (F_bind (fun _ => r_INT32)), F_k. rewrite E. unfold r_INT32. apply minus_int; auto. }
    skip_ff. apply M_hit. exact HM2.
  - apply (M_front o id 126); [repeat split; discriminate || reflexivity|reflexivity|]. atoms. do 3 skip_ff. apply M_hit. exact HM2.
Qed.
Lemma signed_negative l t : literal_text pf l t ->
  (float_text t /\ pf (str "-" ++ t) <> None) \/ (exists z, l = LInt z /\ numeral 10 t z) -> signed (PUnary ONeg (PLit l)) (str "-" ++ t).
Proof.
  intros Hl Hcase j n g s Hj Hf Hr. rewrite <- !app_assoc. pose proof (follow_apart _ _ _ Hf) as Ha. pose proof (apart_breaks _ Ha) as Hb.
  assert (Hc : exists c r, t = c :: r /\ digit_c c).
  { destruct Hcase as [[Hx _]|(z & _ & Hx)]; [apply float_first; auto|eapply numeral_begins; eauto]. }
  destruct Hc as (c & r & Et & Hc).
  assert (Ha8 : reads 8 (PLit l) t).
  { apply atom_reads, atom_literal; auto. rewrite Et. cbn. intros ->. unfold digit_c in Hc. lia. }
  destruct (sub8 (PLit l) t (n + bytes_in (str "-")) g s j Ha8 Hj Hf Hr) as (x & n' & g' & Tx & Hlf & HM).
  exists (NUnary ONeg x), n', g'. split; [constructor; auto|]. split; auto.
  apply (M_front o id 45); [repeat split; discriminate || reflexivity|reflexivity|].
  atoms. apply M_skip.
  { change (45%N :: t ++ g ++ s) with (str "-" ++ t ++ g ++ s). destruct Hcase as [[(i & f & -> & Hn & Hi & _) _]|(z & -> & Hz)].
    - destruct (digits_numeral i Hi Hn) as [z Hz].
      destruct (int32_some (- z) (str "-" ++ i) n (str "." ++ f ++ g ++ s) (it_negative _ _ Hz) ltac:(reflexivity)) as [v Ev].
      rewrite <- !app_assoc in *. eapply (F_bind2 (fun _ => r_INT32)); [apply M_k, Ev|]. apply F_k.
      apply (no_range [] (str "." ++ f ++ g ++ s)); [constructor| |discriminate]. intros m. destruct f; [|reflexivity]. reflexivity.
    - rewrite app_assoc. eapply (integer_no_range (- z)); [apply it_negative; auto|auto|]. apply Hr. reflexivity. }
  skip_ff. apply M_hit. go_lit (str "-"). eapply (M_bind (fun _ => ws_)); [apply M_ws0; rewrite Et; cbn [app]; apply clear_solid, digit_front; auto|].
  go (fun k => C k 17) ltac:(apply HM). apply M_ret.
Qed.
End Atoms.
