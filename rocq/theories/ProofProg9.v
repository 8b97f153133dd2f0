(** Texts of programs: operands and statements that start with a word. *)
From Verif Require Import Base Float NumText Ast Parse SpecArith SpecParse SpecExpr SpecProg ProofParse ProofParse2 ProofParse3 ProofParse4 ProofExpr ProofProg ProofProg2 ProofProg3 ProofProg4 ProofProg5 ProofProg6 ProofProg7 ProofProg8.
From Verif Require ProofExpr3.

Lemma op_assign o w s n : assign_sign o = Some w -> M (fun _ => popt r_op) (n, w ++ str "=" ++ s) o (n + bytes_in w, str "=" ++ s).
Proof.
  intros H. destruct o as [[]|]; cbn in H; try discriminate; injection H as <-; apply M_k; try reflexivity.
  1-5: match goal with |- context [bytes_in ?w] => change (bytes_in w) with 2 end; replace (n + 2) with (n + 1 + 1) by lia; reflexivity.
  replace (n + bytes_in []) with n by (cbn; lia). reflexivity.
Qed.
Lemma assign_clear o w s : assign_sign o = Some w -> clear (w ++ str "=" ++ s).
Proof. intros H n. destruct o as [[]|]; cbn in H; try discriminate; injection H as <-; reflexivity. Qed.
Lemma assign_breaks o w s g : assign_sign o = Some w -> gap g -> breaks (g ++ w ++ str "=" ++ s).
Proof. intros H Hg. apply gap_breaks; auto. destruct o as [[]|]; cbn in H; try discriminate; injection H as <-; reflexivity. Qed.
Lemma begins_no_assign {B} t s n (q : nat -> option op -> unit -> P B) : begins t ->
  F (fun k => on f <- popt r_op; on e <- plit (str "="); q k f e) (n, t ++ s).
Proof.
  intros (c & t' & -> & Hc & Hm). cbn [app]. destruct (N.eq_dec c 45) as [->|Hne].
  - specialize (Hm eq_refl). destruct t' as [|d t']; [contradiction|]. cbn [starts app] in *.
    eapply (F_bind2 (fun _ => popt r_op)); [apply M_k; reflexivity|]. apply (F_bind (fun _ => plit (str "="))), F_k.
    apply (plit_ne 61), N.eqb_neq. congruence.
  - assert (Hi : ~ infix_char c \/ c = 33%N \/ c = 126%N).
    { destruct Hc as [H|[H|H]].
      - left. intros Hi. unfold letter in H. each Hi; lia.
      - left. intros Hi. unfold digit_c in H. each Hi; lia.
      - cbn in H. decompose [or] H; subst; try contradiction; auto; try congruence;
          left; intros Hi; cbn in Hi; decompose [or] Hi; try discriminate; contradiction. }
    destruct Hi as [Hi|[->| ->]]; [|ff|ff].
    destruct (op_other c (t' ++ s) n Hi) as [E1 E2].
    eapply (F_bind2 (fun _ => popt r_op)); [apply M_none, F_k, E1|]. apply (F_bind (fun _ => plit (str "="))), F_k, E2.
Qed.
Lemma ident_if id s n : breaks s -> M (fun _ => ident id) (n, str "if" ++ s) (str "if", mkSpan n (n + 2) id) (n + 2, s).
Proof.
  intros Hs. unfold ident, sp_of. eapply (M_bind (fun _ => ppos)); [apply M_pos|]. cbn beta iota delta [fst].
  eapply (M_bind (fun _ => r_IDENT)); [|eapply (M_bind (fun _ => ppos)); [apply M_pos|apply M_ret]].
  apply M_k. unfold r_IDENT. change (str "if" ++ s) with (105%N :: [102%N] ++ s).
  rewrite (pbind_m _ _ _ 105%N (n + 1, [102%N] ++ s)) by reflexivity.
  unfold pbind. rewrite (prun_app is_word [102%N] s) by (auto; repeat constructor). cbn. replace (n + 2) with (n + 1 + 1) by lia. reflexivity.
Qed.

Section Atoms.
Context (o : oracle) (id : nat).
Notation pf := (o_f64_parse o).
Notation LR := (r_literal o).
Notation C := (climb o id).
Notation first_of := (first_of o id).
Notation back := (back o id).
Notation late := (late o id).
Notation full := (full o id).
Notation atom := (atom o id).
Notation reads := (reads o id).
Notation items := (items o id).
Notation blk := (blk o id).
Notation ifs := (ifs o id).
Ltac atoms := unfold ProofProg6.first_of, ProofProg6.back, ProofProg6.late, prefix_atoms; cbn [app prefixes map fst snd skipn].
Ltac skip_ff := apply M_skip; [ff|].
Ltac go p tac := eapply (M_bind p); [tac|].
Ltac go_ws tac := eapply (M_bind (fun _ => ws_)); [apply M_ws; [auto|tac]|].
Ltac go_ws0 tac := eapply (M_bind (fun _ => ws_)); [apply M_ws0; tac|].
Ltac go_lit w := eapply (M_bind (fun _ => plit w)); [apply (M_lit w)|].
Ltac go_kw w tac := eapply (M_bind (fun _ => kw w)); [apply (M_kw w); tac|].
Ltac sym := apply clear_solid; repeat split; discriminate || reflexivity.
Lemma ident_word w n s : In w reserved -> Forall (fun d => is_word d = true) w -> breaks s -> ident id (n, w ++ s) = PFail.
Proof.
  intros Hr Hw Hs. unfold ident, sp_of. rewrite (pbind_m _ _ _ n (n, w ++ s)) by reflexivity. apply pbind_f. apply ident_kw; auto.
  apply existsb_exists. exists w. split; auto. apply seqb_eq. reflexivity.
Qed.
Ltac skip_id tac := apply M_skip; [apply (F_bind (fun _ => ident id)), F_k; apply ident_word; [cbn; tauto|repeat constructor|tac]|].

(** ** Assignments *)
Lemma combine x sp op_ e y : tree_of e (fst y) -> exists n, tree_of e n /\ combined x n op_ (fst (with_op (x, sp) op_ y)).
Proof. intros H. exists (fst y). split; auto. destruct y as [m s]. destruct op_; constructor. Qed.
Lemma atom_assign x op_ w e t g1 g2 n g s : a_name x -> assign_sign op_ = Some w -> spelled pf 0 e t -> full e t -> gap g1 -> gap g2 ->
  follow 0 g s -> exists nd n' g', tree_of (PAssign x op_ e) nd /\ left g g' /\
    M first_of (n, (x ++ g1 ++ w ++ str "=" ++ g2 ++ t) ++ g ++ s) nd (n', g' ++ s).
Proof.
  intros Hx Hw Se He H1 H2 Hf. rewrite <- !app_assoc.
  destruct (He 3 (n + length x + bytes_in g1 + bytes_in w + bytes_in (str "=") + bytes_in g2) g s ltac:(lia) Hf) as (y & n' & g' & Ty & Hl & HM).
  destruct (combine x (mkSpan n (n + length x) id) op_ e y Ty) as (m & Tm & Hc).
  exists (NAssignment (x, mkSpan n (n + length x) id) (with_op (x, mkSpan n (n + length x) id) op_ y)), n', g'.
  split; [econstructor; eauto|]. split; auto.
  pose proof (a_name_is x Hx) as Hn. assert (Hb : forall r, breaks (g1 ++ w ++ str "=" ++ r)) by (intros; eapply assign_breaks; eauto).
  assert (Hw' : forall v r k, In v words -> kw v (k, x ++ g1 ++ w ++ str "=" ++ r) = PFail).
  { intros v r k Hv. apply kw_other; auto; [cbn in Hv; decompose [or] Hv; subst; try contradiction; repeat constructor|apply not_word; auto]. }
  atoms. do 4 (apply M_skip; [apply (F_bind (fun _ => kw _)), F_k, Hw'; cbn; tauto|]). apply M_hit.
  go (fun _ : nat => ident id) ltac:(apply M_named; auto). go_ws ltac:(apply (assign_clear op_); auto).
  go (fun _ : nat => popt r_op) ltac:(apply (op_assign op_); auto). go_lit (str "="). go_ws ltac:(eapply phrase_clear; eauto).
  go (fun k => C k 3) ltac:(apply HM). apply M_ret.
Qed.

(** ** Functions *)
Lemma word_gap g s c : gap g -> is_word c = false -> breaks (g ++ c :: s).
Proof. intros. apply gap_breaks; auto. Qed.
Lemma M_params ps tp s n : names_text ps tp -> exists nps n', named ps nps /\ forall B (q : nat -> list (spanned rstring) -> P B) y j, 
  M (fun k => q k nps) (n', s) y j -> M (fun k => plit (str "(") >> ws_ >> on a <- commasep (ident id); ws_ >> plit (str ")") >> q k a) (n, str "(" ++ tp ++ str ")" ++ s) y j.
Proof.
  intros Hp.
  destruct (ws_commasep name_of (fun _ => ident id) (stop_at (str ")" ++ s)) (str ")" ++ s) ps (tp ++ []) (n + bytes_in (str "("))) as (nps & n' & HT & HM).
  - sym.
  - discriminate.
  - apply names_list; auto; [constructor|]. intros g Hg. apply breaks_end; auto. constructor.
  - intros m. ff.
  - exists nps, (n' + bytes_in (str ")")). split; [apply named_of; auto|]. intros B q y j H. go_lit (str "(").
    rewrite app_nil_r in HM. apply (HM _ (fun k a => plit (str ")") >> q k a)). go_lit (str ")"). exact H.
Qed.
Lemma atom_lambda ps b tp tb g1 g2 : names_text ps tp -> blk b tb -> gap g1 -> gap g2 ->
  atom (PLambda ps b) (str "fn" ++ g1 ++ str "(" ++ tp ++ str ")" ++ g2 ++ str "{" ++ tb ++ str "}").
Proof.
  intros Hp Hb H1 H2 n g s Hf _. rewrite <- !app_assoc.
  destruct (M_params ps tp (g2 ++ str "{" ++ tb ++ str "}" ++ g ++ s) (n + bytes_in (str "fn") + bytes_in g1) Hp) as (nps & n1 & HT & HM).
  destruct (Hb true (n1 + bytes_in g2) (g ++ s)) as (nb & n' & TB & MB).
  exists (NLambda nps nb), n', g. split; [constructor; auto|]. split; [left; auto|].
  atoms. do 4 skip_ff. skip_id ltac:(apply word_gap; auto). apply M_hit.
  go_kw (str "fn") ltac:(apply word_gap; auto). go_ws ltac:(sym). eapply (M_bind (fun _ => popt (ident id))).
  { apply (M_none (fun _ : nat => ident id)). ff. }
  go_ws0 ltac:(sym).
  apply (HM _ (fun k a => ws_ >> on b <- r_block id (C k) true; pret (NLambda a b))).
  go_ws ltac:(sym). go (fun k => r_block id (C k) true) ltac:(apply MB). apply M_ret.
Qed.
Lemma atom_function f ps b tp tb g1 g2 g3 n s : a_name f -> names_text ps tp -> blk b tb -> some g1 -> gap g2 -> gap g3 ->
  exists nd n', line_tree (SFunction f ps b) nd /\
    M first_of (n, (str "fn" ++ g1 ++ f ++ g2 ++ str "(" ++ tp ++ str ")" ++ g3 ++ str "{" ++ tb ++ str "}") ++ s) nd (n', s).
Proof.
  intros Hx Hp Hb H1 H2 H3. rewrite <- !app_assoc.
  destruct (M_params ps tp (g3 ++ str "{" ++ tb ++ str "}" ++ s) (n + bytes_in (str "fn") + bytes_in g1 + length f + bytes_in g2) Hp) as (nps & n1 & HT & HM).
  destruct (Hb true (n1 + bytes_in g3) s) as (nb & n' & TB & MB).
  eexists _, n'. split; [apply lr_function; eauto|].
  atoms. do 4 skip_ff. skip_id ltac:(apply some_breaks; auto). apply M_hit.
  go_kw (str "fn") ltac:(apply some_breaks; auto). destruct H1 as [H1 _]. 
  go_ws ltac:(apply name_clear; apply a_name_is; auto).
  eapply (M_bind (fun _ => popt (ident id))).
  { apply (M_some (fun _ : nat => ident id)). apply M_named; auto. apply word_gap; auto. }
  go_ws ltac:(sym).
  apply (HM _ (fun k a => ws_ >> on b <- r_block id (C k) true; pret (NFunction _ a b))).
  go_ws ltac:(sym). go (fun k => r_block id (C k) true) ltac:(apply MB). apply M_ret.
Qed.

(** ** Loops and contexts *)
Lemma M_body e te b tb g1 n s : full e te -> blk b tb -> gap g1 -> exists x nb n', tree_of e (fst x) /\ body_tree false b nb /\
  forall B (q : nat -> nodeS -> list nodeS -> P B) y j, M (fun k => q k x nb) (n', s) y j ->
    M (fun k => on c <- C k 0; ws_ >> on b <- r_block id (C k) false; q k c b) (n, te ++ g1 ++ str "{" ++ tb ++ str "}" ++ s) y j.
Proof.
  intros He Hb Hg. destruct (full_close o id e te 123 g1 (tb ++ str "}" ++ s) n He Hg ltac:(cbn; tauto)) as (x & n1 & Tx & HM).
  destruct (Hb false n1 s) as (nb & n2 & TB & MB). exists x, nb, n2. split; auto. split; auto. intros B q y j H.
  apply (HM _ (fun k c => on b <- r_block id (C k) false; q k c b)). go (fun k => r_block id (C k) false) ltac:(apply MB). exact H.
Qed.
Lemma atom_while c b tc tb g1 g2 : spelled pf 0 c tc -> full c tc -> blk b tb -> some g1 -> gap g2 ->
  atom (PWhile c b) (str "while" ++ g1 ++ tc ++ g2 ++ str "{" ++ tb ++ str "}").
Proof.
  intros Sc Hc Hb H1 H2 n g s Hf _. rewrite <- !app_assoc.
  destruct (M_body c tc b tb g2 (n + bytes_in (str "while") + bytes_in g1) (g ++ s) Hc Hb H2) as (x & nb & n' & Tx & TB & HM).
  exists (NWhile x nb), n', g. split; [constructor; auto|]. split; [left; auto|].
  atoms. do 4 skip_ff. skip_id ltac:(apply some_breaks; auto). do 3 skip_ff. apply M_hit.
  go_kw (str "while") ltac:(apply some_breaks; auto). destruct H1 as [H1 _]. go_ws ltac:(eapply phrase_clear; eauto).
  apply (HM _ (fun k c b => pret (NWhile c b))). apply M_ret.
Qed.
Lemma word_ends_gap tx s : word_ends tx -> tx <> [] -> breaks (tx ++ s).
Proof. apply ends_word. Qed.
Lemma atom_for xs e b tx te tb g1 g2 g3 : xs <> [] -> names_text xs tx -> word_ends tx -> spelled pf 0 e te -> full e te -> blk b tb ->
  some g1 -> some g2 -> gap g3 -> 
  atom (PFor xs e b) (str "for" ++ tx ++ g1 ++ str "in" ++ g2 ++ te ++ g3 ++ str "{" ++ tb ++ str "}").
Proof.
  intros Hne Hx Hwe Se He Hb H1 H2 H3 n g s Hf _. rewrite <- !app_assoc. pose proof (names_nil xs tx Hx Hne) as Htx.
  assert (BR : forall r, breaks (tx ++ r)) by (intros; apply ends_word; auto).
  pose proof H1 as S1. destruct H1 as [H1 H1n]. pose proof H2 as [G2 _].
  destruct Hx as [gx Hgx|x gx gx' Hax Hgx Hgx'|x x' l t gx gx' Hax Hl Hgx Hgx']; [congruence| |].
  - rewrite <- !app_assoc.
    destruct (M_body e te b tb g3 (n + bytes_in (str "for") + bytes_in gx + length x + bytes_in (gx' ++ g1) + bytes_in (str "in") + bytes_in g2) (g ++ s) He Hb H3)
      as (y & nb & n' & Ty & TB & HM).
    eexists _, n', g. split; [apply tr_for; eauto|]. split; [left; auto|].
    specialize (BR (g1 ++ str "in" ++ g2 ++ te ++ g3 ++ str "{" ++ tb ++ str "}" ++ g ++ s)). rewrite <- !app_assoc in BR.
    atoms. do 4 skip_ff. skip_id ltac:(auto). do 4 skip_ff. apply M_hit.
    go_kw (str "for") ltac:(auto). go_ws ltac:(apply name_clear; apply a_name_is; auto).
    go (fun _ : nat => ident id) ltac:(apply M_named; [auto|apply gap_breaks; auto; apply some_breaks; auto]).
    rewrite (app_assoc gx' g1). go (fun _ : nat => ws_) ltac:(apply M_ws; [apply gap_app; auto|sym]).
    go_kw (str "in") ltac:(apply some_breaks; auto). go_ws ltac:(eapply phrase_clear; eauto).
    apply (HM _ (fun k i b => pret (NFor (x, _) i b))). apply M_ret.
  - assert (Hx : names_text (x :: x' :: l) (gx ++ x ++ gx' ++ str "," ++ t)) by (constructor; auto).
    set (tl := str "in" ++ g2 ++ te ++ g3 ++ str "{" ++ tb ++ str "}" ++ g ++ s).
    destruct (ws_commasepp name_of (fun _ => ident id) (stop_at tl) tl (x :: x' :: l) ((gx ++ x ++ gx' ++ str "," ++ t) ++ g1) (n + bytes_in (str "for"))) as (nxs & n1 & HT & HC).
    { sym. }
    { discriminate. }
    { apply names_list; auto. intros u Hu. apply some_breaks. split; [apply gap_app; auto|]. destruct u; [exact H1n|discriminate]. }
    { discriminate. }
    destruct (M_body e te b tb g3 (n1 + bytes_in (str "in") + bytes_in g2) (g ++ s) He Hb H3) as (y & nb & n' & Ty & TB & HM).
    eexists _, n', g. split; [apply tr_for_many; eauto; [cbn; lia|apply named_of; eauto]|]. split; [left; auto|].
    rewrite <- (app_assoc _ g1) in HC.
    atoms. do 4 skip_ff. skip_id ltac:(auto). do 4 skip_ff. apply M_skip.
    { eapply (F_bind2 (fun _ => kw (str "for"))); [apply M_kw; auto|]. rewrite <- !app_assoc.
      eapply (F_bind2 (fun _ => ws_)); [apply M_ws; auto; apply name_clear; apply a_name_is; auto|].
      eapply (F_bind2 (fun _ => ident id)); [apply M_named; auto; apply word_gap; auto|].
      eapply (F_bind2 (fun _ => ws_)); [apply M_ws; auto; sym|]. ff. }
    apply M_hit. go_kw (str "for") ltac:(auto).
    apply (HC _ (fun k v => kw (str "in") >> ws_ >> on i <- C k 0; ws_ >> on b <- r_block id (C k) false; pret (NMultiFor v i b))).
    go_kw (str "in") ltac:(apply some_breaks; auto). go_ws ltac:(eapply phrase_clear; eauto).
    apply (HM _ (fun k i b => pret (NMultiFor nxs i b))). apply M_ret.
Qed.
Lemma atom_with x args xs b ta tx tb g1 g2 g3 g4 : a_name x -> items args ta -> spelled_as pf xs tx -> blk b tb ->
  gap g1 -> gap g2 -> gap g3 -> gap g4 ->
  atom (PWith x args xs b) 
      (str "with" ++ g1 ++ str "@" ++ g2 ++ x ++ g3 ++ str "(" ++ ta ++ str ")" ++ tx ++ g4 ++ str "{" ++ tb ++ str "}").
Proof.
  intros Hx Ha Has Hb H1 H2 H3 H4 n g s Hf _. rewrite <- !app_assoc.
  destruct (M_args o id args ta (tx ++ g4 ++ str "{" ++ tb ++ str "}" ++ g ++ s) 
    (n + bytes_in (str "with") + bytes_in g1 + bytes_in (str "@") + bytes_in g2 + length x + bytes_in g3) Ha) as (nargs & n1 & TA & MA).
  set (sp := mkSpan (n + bytes_in (str "with") + bytes_in g1 + bytes_in (str "@") + bytes_in g2) (n + bytes_in (str "with") + bytes_in g1 + bytes_in (str "@") + bytes_in g2 + length x) id).
  assert (AS : exists v n2, (match xs with None => v = None | Some l => exists nl, v = Some nl /\ named l nl /\ l <> [] end) /\
    forall B (q : nat -> option (list (spanned rstring)) -> P B) y j, M (fun k => q k v) (n2, str "{" ++ tb ++ str "}" ++ g ++ s) y j ->
      M (fun k => on v <- popt (ws_ >> kw (str "as") >> ws_ >> commasep (ident id)); ws_ >> q k v) (n1, tx ++ g4 ++ str "{" ++ tb ++ str "}" ++ g ++ s) y j).
  { destruct Has as [|xs tx g5 Hne Hxs Hwe H5].
    - exists None, (n1 + bytes_in g4). split; auto. intros B q y j H. cbn [app].
      eapply (M_bind (fun _ => popt _)).
      { apply (M_none (fun _ : nat => ws_ >> kw (str "as") >> ws_ >> commasep (ident id))).
        eapply (F_bind2 (fun _ => ws_)); [apply M_ws; auto; sym|]. ff. }
      go_ws ltac:(sym). exact H.
    - set (tl := str "{" ++ tb ++ str "}" ++ g ++ s). pose proof (names_nil xs tx Hxs Hne) as Htx.
      assert (BR : forall r, breaks (tx ++ r)) by (intros; apply ends_word; auto).
      assert (HL : list_text (stop_at tl) (item name_of (fun _ => ident id) (stop_at tl) tl) xs (tx ++ g4)).
      { apply names_list; auto. intros u Hu. apply breaks_end; auto. }
      destruct (first_gap _ _ _ xs (tx ++ g4) tl HL) as (g6 & t' & [(E & H6 & Hc & HL')|(-> & _)]); [|congruence].
      destruct (M_commasep name_of (fun _ => ident id) (stop_at tl) tl xs t' (n1 + bytes_in g5 + bytes_in (str "as") + bytes_in g6)) as (nl & n2 & HT & HM).
      { sym. }
      { discriminate. }
      { exact HL'. }
      { intros m. ff. }
      exists (Some nl), n2. split; [exists nl; split; auto; split; auto; apply named_of; auto|]. intros B q y j H.
      eapply (M_bind (fun _ => popt _)).
      { apply (M_some (fun _ : nat => ws_ >> kw (str "as") >> ws_ >> commasep (ident id))). rewrite <- !app_assoc. go_ws ltac:(sym).
        go_kw (str "as") ltac:(auto). rewrite (app_assoc tx g4). unfold rstring in *. rewrite E, <- app_assoc. go_ws ltac:(auto). apply HM. }
      go_ws0 ltac:(sym). exact H. }
  destruct AS as (v & n2 & Hv & AM).
  destruct (Hb false n2 (g ++ s)) as (nb & n' & TB & MB).
  exists (NContext (x, sp) nargs (match v with Some [x] => Some (VarDecl x) | Some l => Some (VarMulti l) | None => None end) nb), n', g.
  split.
  { destruct xs as [l|]; [|subst v; constructor; auto]. destruct Hv as (nl & -> & Hl & Hne). 
    unfold named in Hl. destruct nl as [|[y ysp] [|z nl]]; subst l; [exfalso; apply Hne; reflexivity| |].
    - cbn [map fst]. apply tr_with_as; auto.
    - apply tr_with_many; auto; [cbn; lia|reflexivity]. }
  split; [left; auto|].
  atoms. do 4 skip_ff. skip_id ltac:(apply word_gap; auto). do 6 skip_ff. apply M_hit.
  go_kw (str "with") ltac:(apply word_gap; auto). go_ws ltac:(sym).
  eapply (M_bind (fun _ => plit (str "@") >> ws_ >> ident id)).
  { go_lit (str "@"). go_ws ltac:(apply name_clear; apply a_name_is; auto). apply M_named; auto. apply word_gap; auto. }
  go_ws ltac:(sym). go (fun k => args_ (C k)) ltac:(apply MA).
  apply (AM _ (fun k v => on b <- r_block id (C k) false; pret (NContext (x, sp) nargs (match v with Some [x] => Some (VarDecl x) | Some l => Some (VarMulti l) | None => None end) b))).
  go (fun k => r_block id (C k) false) ltac:(apply MB). apply M_ret.
Qed.
End Atoms.
