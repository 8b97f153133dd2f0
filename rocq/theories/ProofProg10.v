(** Texts of programs: choices between bodies. *)
From Verif Require Import Base Float NumText Ast Parse SpecArith SpecParse SpecExpr SpecProg ProofParse ProofParse2 ProofParse3 ProofParse4 ProofExpr ProofProg ProofProg2 ProofProg3 ProofProg4 ProofProg5 ProofProg6 ProofProg7 ProofProg8 ProofProg9.
From Verif Require ProofExpr3.

Lemma M_unws {A} (p : nat -> P A) n s r j : clear s -> M (fun k => ws_ >> p k) (n, s) r j -> M p (n, s) r j.
Proof.
  intros Hs H. eapply ev_imp; [apply H|]. cbn beta. intros k E. rewrite (pbind_m _ _ _ _ _ (ws_clear s n Hs)) in E. exact E.
Qed.
Lemma F_unws {A} (p : nat -> P A) n s : clear s -> F (fun k => ws_ >> p k) (n, s) -> F p (n, s).
Proof.
  intros Hs H. eapply ev_imp; [apply H|]. cbn beta. intros k E. rewrite (pbind_m _ _ _ _ _ (ws_clear s n Hs)) in E. exact E.
Qed.

Section Atoms.
Context (o : oracle) (id : nat).
Notation pf := (o_f64_parse o).
Notation LR := (r_literal o).
Notation C := (climb o id).
Notation first_of := (first_of o id).
Notation full := (full o id).
Notation atom := (atom o id).
Notation items := (items o id).
Notation blk := (blk o id).
Notation ifs := (ifs o id).
Ltac atoms := unfold ProofProg6.first_of, ProofProg6.back, ProofProg6.late, prefix_atoms; cbn [app prefixes map fst snd skipn].
Ltac skip_ff := apply M_skip; [ff|].
Ltac go p tac := eapply (M_bind p); [tac|].
Ltac go_ws tac := eapply (M_bind (fun _ => ws_)); [apply M_ws; [auto|tac]|].
Ltac go_ws0 tac := eapply (M_bind (fun _ => ws_)); [apply M_ws0; tac|].
Ltac go_lit w := eapply (M_bind (fun _ => plit w)); [apply (M_lit w)|].
Ltac go_kw w tac := eapply (M_bind (fun _ => kw w)); [apply (M_kw w); tac|].
Ltac sym := apply clear_solid; repeat split; discriminate || reflexivity.
Ltac skip_id tac := apply M_skip; [apply (F_bind (fun _ => ident id)), F_k; apply ident_word; [cbn; tauto|repeat constructor|tac]|].

(** ** Conditions *)
Definition else_of (e : option (list line)) (ne : option (list nodeS)) : Prop :=
  match e with None => ne = None | Some b => exists nb, ne = Some nb /\ body_tree false b nb end.
Definition elif_ (f : nat -> nat) (k : nat) : P (list nodeS) :=
  on s <- ppos; ws_ >> on c <- r_if id (C (f k)) k; ws_ >> on e <- ppos; pret [(c, mkSpan s e id)].
Definition else_ (f : nat -> nat) (k : nat) : P (list nodeS) := kw (str "else") >> ws_ >> (r_block id (C (f k)) false <|> elif_ f k).
Definition elses (e : option (list line)) (te : rstring) : Prop :=
  forall f, (forall k, k <= f k) -> forall n g s, gap g -> clear s -> not_else s -> exists ne n', else_of e ne /\
    forall B (q : nat -> option (list nodeS) -> P B) y j, M (fun k => q k ne) (n', s) y j ->
      M (fun k => ws_ >> on e <- popt (else_ f k); ws_ >> q k e) (n, te ++ g ++ s) y j.
Lemma else_none : elses None [].
Proof.
  intros f Hf n g s Hg Hs Hn. exists None, (n + bytes_in g). split; [reflexivity|]. intros B q y j H. cbn [app]. go_ws ltac:(auto).
  go (fun k => popt (else_ f k)) ltac:(apply (M_none (else_ f)); apply (F_bind (fun _ => kw (str "else"))), F_k, Hn).
  go_ws0 ltac:(auto). exact H.
Qed.
Lemma else_block b tb g1 g2 : blk b tb -> gap g1 -> gap g2 -> elses (Some b) (g1 ++ str "else" ++ g2 ++ str "{" ++ tb ++ str "}").
Proof.
  intros Hb H1 H2 f Hf n g s Hg Hs Hn. rewrite <- !app_assoc.
  destruct (Hb false (n + bytes_in g1 + bytes_in (str "else") + bytes_in g2) (g ++ s)) as (nb & n' & TB & MB).
  exists (Some nb), (n' + bytes_in g). split; [exists nb; auto|]. intros B q y j H. go_ws ltac:(sym).
  go (fun k => popt (else_ f k)) ltac:(apply (M_some (else_ f))).
  { unfold else_. go_kw (str "else") ltac:(apply word_gap; auto). go_ws ltac:(sym). apply (M_left (fun k => r_block id (C (f k)) false)).
    apply (M_sub (fun k => r_block id (C k) false)); auto. apply MB. }
  go_ws ltac:(auto). exact H.
Qed.
Lemma else_if e t g1 g2 : spelled_if pf e t -> ifs e t -> gap g1 -> some g2 -> elses (Some [SValue e]) (g1 ++ str "else" ++ g2 ++ t).
Proof.
  intros Se He H1 H2 f Hf n g s Hg Hs Hn. rewrite <- !app_assoc.
  destruct (He f Hf (n + bytes_in g1 + bytes_in (str "else") + bytes_in g2) g s Hg Hs Hn) as (nd & n' & Tn & HM).
  destruct (if_first _ _ _ Se) as (g3 & tc & r & H3 & Et & _).
  eexists (Some [(nd, _)]), n'. split; [eexists; split; [reflexivity|]; apply (bt_value false); eauto|]. intros B q y j H. go_ws ltac:(sym).
  go (fun k => popt (else_ f k)) ltac:(apply (M_some (else_ f))).
  { unfold else_. go_kw (str "else") ltac:(apply some_breaks; auto). destruct H2 as [H2 _].
    assert (Hc : clear (t ++ g ++ s)) by (rewrite Et; sym).
    go_ws ltac:(auto). apply (M_right (fun k => r_block id (C (f k)) false) (elif_ f)).
    { rewrite Et. rewrite <- !app_assoc. ff. }
    unfold elif_. go (fun _ : nat => ppos) ltac:(apply M_pos). go_ws0 ltac:(auto). go (fun k => r_if id (C (f k)) k) ltac:(apply HM).
    go_ws0 ltac:(auto). go (fun _ : nat => ppos) ltac:(apply M_pos). cbn [fst]. apply M_ret. }
  go_ws0 ltac:(auto). exact H.
Qed.
Lemma if_reads c b e tc tb te g1 g2 : spelled pf 0 c tc -> full c tc -> blk b tb -> elses e te -> some g1 -> gap g2 ->
  ifs (PIf c b e) (str "if" ++ g1 ++ tc ++ g2 ++ str "{" ++ tb ++ str "}" ++ te).
Proof.
  intros Sc Hc Hb He H1 H2 f Hf n g s Hg Hs Hn. rewrite <- !app_assoc. pose proof H1 as [G1 _].
  destruct (Hc 0 (n + bytes_in (str "if") + bytes_in g1) g2 (str "{" ++ tb ++ str "}" ++ te ++ g ++ s) ltac:(lia)) as (x & n1 & g' & Tx & Hl & MC).
  { apply follow_close; auto. cbn; tauto. }
  destruct (Hb false (n1 + bytes_in g') (te ++ g ++ s)) as (nb & n2 & TB & MB).
  destruct (He (fun k => f (S k)) ltac:(intros k; specialize (Hf (S k)); lia) n2 g s Hg Hs Hn) as (ne & n' & TE & ME).
  exists (NConditional x nb ne), n'. split.
  { destruct e as [b2|]; cbn in TE; [destruct TE as (nb2 & -> & TE); apply tr_if_else; auto|subst ne; apply tr_if; auto]. }
  apply M_up. cbn [r_if]. go_ws0 ltac:(sym). go_kw (str "if") ltac:(apply some_breaks; auto). go_ws ltac:(eapply phrase_clear; eauto).
  assert (Hf' : forall k, k <= f (S k)) by (intros k; specialize (Hf (S k)); lia).
  go (fun k => C (f (S k)) 0) ltac:(apply (M_sub (fun k => C k 0) (fun k => f (S k))); [auto|apply MC]).
  eapply (M_bind (fun _ => ws_)); [apply M_ws; [apply (left_gap g2); auto|sym]|].
  go (fun k => r_block id (C (f (S k))) false) ltac:(apply (M_sub (fun k => r_block id (C k) false) (fun k => f (S k))); [auto|apply MB]).
  apply (ME _ (fun k e => pret (NConditional x nb e))). apply M_ret.
Qed.
Lemma atom_if e t : spelled_if pf e t -> ifs e t -> atom e t.
Proof.
  intros Se He n g s Hf _. pose proof (follow_gap _ _ _ Hf) as Hg.
  destruct (He (fun k => k) ltac:(lia) n g s Hg (follow_clear _ _ _ Hf) (follow_else _ _ _ Hf)) as (nd & n' & Tn & HM).
  exists nd, n', []. split; auto. split; [right; auto|]. cbn [app].
  destruct (if_first _ _ _ Se) as (g3 & tc & r & H3 & -> & c & Sc). rewrite <- !app_assoc in *.
  pose proof H3 as [G3 _].
  atoms. do 4 skip_ff. apply M_skip.
  { eapply (F_bind2 (fun _ => ident id)); [apply ident_if, some_breaks; auto|].
    eapply (F_bind2 (fun _ => ws_)); [apply M_ws; auto; eapply phrase_clear; eauto|].
    apply (begins_no_assign tc (r ++ g ++ s) _ (fun k f _ => ws_ >> on n <- C k 3; pret (NAssignment _ (with_op _ f n)))). eapply phrase_begins; eauto. }
  skip_ff. apply M_hit. exact HM.
Qed.

(** ** Cases *)
Section Values.
Context {A B : Type} (T : A -> B -> Prop) (X : nat -> P B) (tl : rstring).
Notation sep := (ws_ >> plit (str ",") >> ws_).
Lemma values_read l t : clear tl -> ~ starts (fun c => c = 44%N) tl -> list_text all (item T X all tl) l t -> l <> [] ->
  exists g0 t0, t = g0 ++ t0 /\ gap g0 /\ clear (t0 ++ tl) /\ forall n, exists b r i n' g', Forall2 T l (b :: r) /\ gap g' /\
    M X (n, t0 ++ tl) b i /\ length (snd i) < length (t0 ++ tl) /\ runs (fun k => sep >> X k) i r (n', g' ++ tl).
Proof.
  intros Hc Hn. induction 1 as [g Hg|a t g g' Ha Hg Hg' _|a a' l t t' g g' Ha HL IH Hg Hg']; intros Hl; [congruence| |].
  - exists g, (t ++ g'). split; auto. split; auto. destruct Ha as (Hct & Hne & Ha). split; [rewrite <- app_assoc; auto|]. intros n.
    destruct (Ha g' tl n Hg' (or_intror (conj eq_refl Logic.I))) as (b & n' & g2 & Tb & Hg2 & HL & HM).
    exists b, [], (n', g2 ++ tl), n', g2. split; [constructor; auto|]. split; auto. rewrite <- app_assoc. split; auto. split.
    { cbn [snd]. destruct t; [congruence|]. rewrite !app_length. cbn [length]. lia. }
    apply ru_nil. eapply (F_bind (fun _ => sep)). eapply (F_bind2 (fun _ => ws_)); [apply M_ws; auto|].
    apply (F_bind (fun _ => plit (str ","))), F_k. destruct tl as [|c r]; [reflexivity|]. apply (plit_ne 44), N.eqb_neq. intros <-. apply Hn. reflexivity.
  - destruct (IH ltac:(discriminate)) as (g0 & t0 & -> & Hg0 & Hct0 & IH').
    exists g, (t ++ g' ++ str "," ++ g0 ++ t0). split; [rewrite <- ?app_assoc; auto|]. split; auto. destruct Ha as (Hct & Hne & Ha).
    split; [rewrite <- app_assoc; auto|]. intros n.
    destruct (Ha g' (str "," ++ g0 ++ t0 ++ tl) n Hg' (or_introl eq_refl)) as (b & n1 & g2 & Tb & Hg2 & HL1 & HM).
    destruct (IH' (n1 + bytes_in g2 + bytes_in (str ",") + bytes_in g0)) as (b' & r & i & n' & g3 & TT & Hg3 & MX & HLi & HR).
    exists b, (b' :: r), (n1, g2 ++ str "," ++ g0 ++ t0 ++ tl), n', g3. split; [constructor; auto|]. split; auto.
    replace ((t ++ g' ++ str "," ++ g0 ++ t0) ++ tl) with (t ++ g' ++ str "," ++ g0 ++ t0 ++ tl) by (rewrite <- !app_assoc; reflexivity).
    split; auto. split.
    { cbn [snd]. destruct t; [congruence|]. rewrite !app_length. cbn [length]. rewrite ?app_length. lia. }
    apply ru_cons with (i' := i).
    + eapply (M_bind (fun _ => sep)).
      { go_ws ltac:(sym). go_lit (str ","). apply M_ws; auto. }
      exact MX.
    + cbn [snd]. rewrite !app_length. rewrite app_length in HLi. change (length (str ",")) with 1. lia.
    + exact HR.
Qed.
Lemma M_values l t n : clear tl -> ~ starts (fun c => c = 44%N) tl -> list_text all (item T X all tl) l t -> l <> [] ->
  exists bs n', Forall2 T l bs /\ forall D (q : nat -> list B -> P D) y j, M (fun k => q k bs) (n', tl) y j ->
    M (fun k => ws_ >> on v <- psep1 (X k) sep; ws_ >> q k v) (n, t ++ tl) y j.
Proof.
  intros Hc Hn HL Hl. destruct (values_read l t Hc Hn HL Hl) as (g0 & t0 & -> & Hg0 & Hc0 & H).
  destruct (H (n + bytes_in g0)) as (b & r & i & n' & g' & TT & Hg' & HM & _ & HR).
  exists (b :: r), (n' + bytes_in g'). split; auto. intros D q y j HQ. rewrite <- app_assoc. go_ws ltac:(auto).
  eapply (M_bind (fun k => psep1 (X k) sep)).
  { unfold psep1. go X ltac:(apply HM). eapply M_bind; [apply M_star, HR|]. apply M_ret. }
  go_ws ltac:(auto). exact HQ.
Qed.
End Values.

Definition case_of (c : list phrase * list line) (nc : list nodeS * list nodeS) : Prop := trees_of (fst c) (fst nc) /\ body_tree false (snd c) (snd nc).
Definition cases (cs : list (list phrase * list line)) (tc : rstring) : Prop := exists g0 t0, tc = g0 ++ t0 /\ gap g0 /\ 
  forall tl, clear tl -> (forall n, kw (str "case") (n, tl) = PFail) -> clear (t0 ++ tl) /\ forall n, exists vcs n', Forall2 case_of cs vcs /\
    runs (fun k => ws_ >> r_case id (C k)) (n, t0 ++ tl) vcs (n', tl).
Lemma no_case tl n : clear tl -> (forall n, kw (str "case") (n, tl) = PFail) -> F (fun k => r_case id (C k)) (n, tl).
Proof. intros Hc Hk. unfold r_case. eapply (F_bind2 (fun _ => ws_)); [apply M_ws0; auto|]. apply (F_bind (fun _ => kw _)), F_k, Hk. Qed.
Lemma cases_none g : gap g -> cases [] g.
Proof.
  intros Hg. exists g, []. split; [rewrite app_nil_r; auto|]. split; auto. intros tl Hc Hk. split; auto. intros n.
  exists [], n. split; auto. apply ru_nil. cbn [app]. eapply (F_bind2 (fun _ => ws_)); [apply M_ws0; auto|]. apply no_case; auto.
Qed.
Lemma cases_more vs b cs tv tb tc g : vs <> [] -> items vs tv -> word_ends tv -> tv <> [] -> blk b tb -> cases cs tc -> gap g ->
  cases ((vs, b) :: cs) (g ++ str "case" ++ tv ++ str "{" ++ tb ++ str "}" ++ tc).
Proof.
  intros Hne Hv Hwe Hnil Hb (g0 & t0 & -> & Hg0 & HC) Hg.
  exists g, (str "case" ++ tv ++ str "{" ++ tb ++ str "}" ++ g0 ++ t0). split; [rewrite <- ?app_assoc; auto|]. split; auto.
  intros tl Hc Hk. destruct (HC tl Hc Hk) as [Hct HR]. split; [sym|]. intros n. rewrite <- !app_assoc.
  destruct (M_values node_of (X0 o id) (123%N :: tb ++ str "}" ++ g0 ++ t0 ++ tl) vs tv (n + bytes_in (str "case"))) as (bs & n1 & TV & MV); auto.
  { sym. }
  { discriminate. }
  { apply Hv. cbn; tauto. }
  destruct (Hb false n1 (g0 ++ t0 ++ tl)) as (nb & n2 & TB & MB).
  destruct (HR (n2 + bytes_in g0)) as (vcs & n' & TC & RC).
  exists ((bs, nb) :: vcs), n'. split; [constructor; auto; split; [apply trees; auto|auto]|].
  apply ru_cons with (i' := (n2 + bytes_in g0, t0 ++ tl)).
  - go_ws0 ltac:(sym). unfold r_case. go_ws0 ltac:(sym). go_kw (str "case") ltac:(apply ends_word; auto).
    apply (MV _ (fun k v => on c <- r_block id (C k) false; ws_ >> pret (v, c))).
    go (fun k => r_block id (C k) false) ltac:(apply MB). go_ws ltac:(auto). apply M_ret.
  - cbn [snd]. rewrite !app_length. change (length (str "case")) with 4. lia.
  - exact RC.
Qed.
Definition default (d : option (list line)) (td : rstring) : Prop := (forall s, clear (td ++ str "}" ++ s)) /\
  (forall s n, kw (str "case") (n, td ++ str "}" ++ s) = PFail) /\
  forall n s, exists nd n', else_of d nd /\ forall B (q : nat -> option (list nodeS) -> P B) y j, M (fun k => q k nd) (n', str "}" ++ s) y j ->
    M (fun k => ws_ >> on d <- popt (r_default id (C k)); ws_ >> q k d) (n, td ++ str "}" ++ s) y j.
Lemma default_none : default None [].
Proof.
  split; [intros; sym|]. split; [intros; reflexivity|]. intros n s. exists None, n. split; [reflexivity|]. intros B q y j H. cbn [app].
  go_ws0 ltac:(sym). go (fun k => popt (r_default id (C k))) ltac:(apply (M_none (fun k => r_default id (C k))); ff). go_ws0 ltac:(sym). exact H.
Qed.
Lemma default_some b tb g1 g2 : blk b tb -> gap g1 -> gap g2 -> default (Some b) (str "default" ++ g1 ++ str "{" ++ tb ++ str "}" ++ g2).
Proof.
  intros Hb H1 H2. split; [intros; sym|]. split; [intros; reflexivity|]. intros n s. rewrite <- !app_assoc.
  destruct (Hb false (n + bytes_in (str "default") + bytes_in g1) (g2 ++ str "}" ++ s)) as (nb & n' & TB & MB).
  exists (Some nb), (n' + bytes_in g2). split; [exists nb; auto|]. intros B q y j H. go_ws0 ltac:(sym).
  go (fun k => popt (r_default id (C k))) ltac:(apply (M_some (fun k => r_default id (C k)))).
  { unfold r_default. go_ws0 ltac:(sym). go_kw (str "default") ltac:(apply word_gap; auto). go_ws ltac:(sym).
    go (fun k => r_block id (C k) false) ltac:(apply MB). go_ws ltac:(sym). apply M_ret. }
  go_ws0 ltac:(sym). exact H.
Qed.
Lemma M_cases {A} (p : nat -> P A) n s l j : clear s -> runs (fun k => ws_ >> p k) (n, s) l j -> M (fun k => psep (p k) ws_) (n, s) l j.
Proof.
  intros Hs HR. unfold psep. inversion HR as [i H E1 E2 E3|i a i' l' j' Ma HL RC E1 E2 E3]; subst.
  - apply (M_right (fun k => psep1 (p k) ws_)); [|apply M_ret]. unfold psep1. apply (F_bind p). apply F_unws in H; auto.
  - apply M_unws in Ma; auto. apply (M_left (fun k => psep1 (p k) ws_)). unfold psep1.
    go p ltac:(apply Ma). go (fun k => pstar (ws_ >> p k)) ltac:(apply M_star, RC). apply M_ret.
Qed.
Lemma cases_trees cs vcs : Forall2 case_of cs vcs -> cases_tree cs (flat_map (fun vc => map (fun x => (x, snd vc)) (fst vc)) vcs).
Proof.
  induction 1 as [|[vs b] [nvs nb] cs vcs [H1 H2] _ IH]; cbn [flat_map fst snd]; constructor; auto.
Qed.
Lemma atom_switch v cs d tv tc td g1 g2 : spelled pf 0 v tv -> full v tv -> cases cs tc -> default d td -> some g1 -> gap g2 ->
  atom (PSwitch v cs d) (str "switch" ++ g1 ++ tv ++ g2 ++ str "{" ++ tc ++ td ++ str "}").
Proof.
  intros Sv Hv (g0 & t0 & -> & Hg0 & HC) (D1 & D2 & D3) H1 H2 n g s Hf _. rewrite <- !app_assoc. pose proof H1 as [G1 _].
  destruct (full_close o id v tv 123 g2 (g0 ++ t0 ++ td ++ str "}" ++ g ++ s) (n + bytes_in (str "switch") + bytes_in g1) Hv H2 ltac:(cbn; tauto)) as (x & n1 & Tx & MX).
  destruct (HC (td ++ str "}" ++ g ++ s) (D1 _) (D2 _)) as [Hct HR].
  destruct (HR (n1 + bytes_in (str "{") + bytes_in g0)) as (vcs & n2 & TC & RC).
  destruct (D3 n2 (g ++ s)) as (nd & n3 & TD & MD).
  exists (NSwitch x (flat_map (fun vc => map (fun x => (x, snd vc)) (fst vc)) vcs) nd), (n3 + bytes_in (str "}") + bytes_in g), []. split.
  { destruct d as [b|]; cbn in TD; [destruct TD as (nb & -> & TD); apply tr_switch_default; auto; apply cases_trees; auto|subst nd; apply tr_switch; auto; apply cases_trees; auto]. }
  split; [right; auto|].
  atoms. do 4 skip_ff. skip_id ltac:(apply some_breaks; auto). do 2 skip_ff. apply M_hit.
  unfold r_switch. go_ws0 ltac:(sym). go_kw (str "switch") ltac:(apply some_breaks; auto). go_ws ltac:(eapply phrase_clear; eauto).
  apply (MX _ (fun k v => plit (str "{") >> ws_ >> on cs <- psep (r_case id (C k)) ws_; ws_ >> on d <- popt (r_default id (C k)); ws_ >> plit (str "}") >> ws_ >>
     pret (NSwitch v (flat_map (fun vc => map (fun x => (x, snd vc)) (fst vc)) cs) d))).
  go_lit (str "{"). go_ws ltac:(auto).
  eapply (M_bind (fun k => psep (r_case id (C k)) ws_)) with (a := vcs) (j := (n2, td ++ str "}" ++ g ++ s)).
  { apply M_cases; auto. }
  apply (MD _ (fun k d => plit (str "}") >> ws_ >> pret (NSwitch x _ d))). go_lit (str "}"). 
  eapply (M_bind (fun _ => ws_)); [apply M_ws; [eapply follow_gap; eauto|eapply follow_clear; eauto]|]. apply M_ret.
Qed.
End Atoms.
