(** Texts of programs: operands that contain other texts. *)
From Verif Require Import Base Float NumText Ast Parse SpecArith SpecParse SpecExpr SpecProg ProofParse ProofParse2 ProofParse3 ProofParse4 ProofExpr ProofProg ProofProg2 ProofProg3 ProofProg4 ProofProg5 ProofProg6.
From Verif Require ProofExpr3.

Definition left (g g' : rstring) : Prop := g' = g \/ g' = [].
Lemma left_gap g g' : gap g -> left g g' -> gap g'.
Proof. intros H [->| ->]; [auto|constructor]. Qed.
(** What may follow at level [j]. *)
Definition upto (j : nat) (e : phrase) : nat := match j, e with 0, PAssign _ _ _ => 0 | _, _ => S j end.
Lemma upto_le j e : upto j e <= S j.
Proof. destruct j, e; cbn; lia. Qed.
Lemma follow_zero m g s : follow 0 g s -> follow m g s.
Proof. intros H. eapply follow_more; eauto. lia. Qed.
Lemma follow_gap m g s : follow m g s -> gap g.
Proof. intros H. apply H. Qed.
Lemma follow_range g s : follow 0 g s -> norange (g ++ s).
Proof.
  intros Hf. pose proof (follow_clear _ _ _ Hf) as Hc. destruct Hf as [Hg [[_ He]|(H & _)]]; [|lia].
  apply no_range; auto. inversion He; subst; auto; try lia.
  match goal with H : quiet ?c |- _ => apply quiet_infix in H; intros ->; apply H; cbn; tauto end.
Qed.
Lemma follow_close g c s : gap g -> In c (str ",)]}{") -> follow 0 g (c :: s).
Proof.
  intros Hg Hc. split; auto. left. split.
  - apply gap_apart; auto. apply closer_apart. cbn in *. tauto.
  - apply en_quiet; [right; right; cbn in *; tauto|]. intros n. apply pbind_f. apply plit_ne, N.eqb_neq. intros <-.
    cbn in Hc. decompose [or] Hc; try discriminate; contradiction.
Qed.
Lemma follow_end g : gap g -> follow 0 g [].
Proof. intros Hg. split; auto. left. split; [|constructor]. rewrite app_nil_r. pose proof (gap_apart g [] Hg Logic.I) as H. rewrite app_nil_r in H. exact H. Qed.
Lemma ends_level m m' s : m <= m' -> 8 <= m -> ends m' s -> ends m s.
Proof. intros H H8 He. apply (ends_more 8); [apply (ends_8 m'); [lia|auto]|lia]. Qed.

(** ** Names in a list *)
Section Names.
Context (id : nat).
Definition name_of (x : rstring) (b : spanned rstring) : Prop := fst b = x.
Notation X := (fun _ : nat => ident id).
Definition stop_at (tl g : rstring) : Prop := breaks (g ++ tl).
Lemma name_item tl x : a_name x -> item name_of X (stop_at tl) tl x x.
Proof.
  intros Hx. pose proof (a_name_is x Hx) as Hn. split; [intros; apply name_clear; auto|]. split.
  { destruct (name_word x Hn) as (c & t & -> & _). discriminate. }
  intros g s n Hg Hs. assert (breaks (g ++ s)).
  { destruct Hs as [Hs|[-> Hs]]; [|exact Hs]. apply gap_breaks; auto. destruct s as [|c s]; [contradiction|]. cbn in Hs. subst. reflexivity. }
  eexists _, _, g. split; [|split; [auto|split; [auto|apply M_named; auto]]]. reflexivity.
Qed.
Lemma names_list xs tx g1 tl : names_text xs tx -> gap g1 -> (forall g, gap g -> breaks ((g ++ g1) ++ tl)) ->
  list_text (stop_at tl) (item name_of X (stop_at tl) tl) xs (tx ++ g1).
Proof.
  intros H Hg HB. induction H as [g Hg0|x g g' Hx Hg0 Hg'|x x' l t g g' Hx Hl IH Hg0 Hg'].
  - apply li_none. apply gap_app; auto.
  - rewrite <- !app_assoc. apply li_last; [apply name_item; auto|auto|apply gap_app; auto|apply HB; auto].
  - rewrite <- !app_assoc. apply li_more; auto. apply name_item; auto.
Qed.
Lemma named_of xs bs : Forall2 name_of xs bs -> named xs bs.
Proof. induction 1 as [|x b xs bs H _ IH]; [reflexivity|]. unfold named in *. cbn. rewrite IH, H. reflexivity. Qed.
End Names.
Lemma breaks_end g g1 c s : gap g -> gap g1 -> is_word c = false -> breaks ((g ++ g1) ++ c :: s).
Proof. intros. apply gap_breaks; [apply gap_app; auto|]. auto. Qed.
Lemma ends_word t s : word_ends t -> t <> [] -> breaks (t ++ s).
Proof. intros H Hn. apply word_ends_is in H. destruct t; [congruence|exact H]. Qed.
Lemma names_nil xs tx : names_text xs tx -> xs <> [] -> tx <> [].
Proof.
  intros H Hx. destruct H as [g Hg|x g g' Ha|x x' l t g g' Ha]; [congruence| |]; destruct (name_word x (a_name_is x Ha)) as (c & r & -> & _);
    intros E; apply (f_equal (@length N)) in E; rewrite !app_length in E; cbn in E; lia.
Qed.

Section Atoms.
Context (o : oracle) (id : nat).
Notation pf := (o_f64_parse o).
Notation LR := (r_literal o).
Notation C := (climb o id).
Notation first_of := (first_of o id).
Notation back := (back o id).
Notation late := (late o id).
Definition X0 (k : nat) : P nodeS := C k 0.
Definition node_of (e : phrase) (x : nodeS) : Prop := tree_of e (fst x).

Definition full (e : phrase) (t : rstring) : Prop := forall mn n g s, mn <= 8 -> follow 0 g s ->
  exists x n' g', tree_of e (fst x) /\ left g g' /\ M (fun k => C k mn) (n, t ++ g ++ s) x (n', g' ++ s).
Definition atom (e : phrase) (t : rstring) : Prop := forall n g s, follow 10 g s -> (number_last e = true -> norange (g ++ s)) ->
  exists nd n' g', tree_of e nd /\ left g g' /\ M first_of (n, t ++ g ++ s) nd (n', g' ++ s).
Definition reads (j : nat) (e : phrase) (t : rstring) : Prop := forall m mn n g s, m <= j -> j <= 9 -> agree mn m -> follow (upto j e) g s ->
  (number_last e = true -> norange (g ++ s)) ->
  exists x N n' g', tree_of e (fst x) /\ left g g' /\ length (g' ++ s) < N /\
    ev (fun k => C (S k) mn (n, t ++ g ++ s) = post_loop id (C k) N mn n x (n', g' ++ s)).
Definition items (l : list phrase) (t : rstring) : Prop := forall c r, In c (str ")]{") ->
  list_text all (item node_of X0 all (c :: r)) l t.
Definition blk (b : list line) (tb : rstring) : Prop := forall f n s, exists nb n', body_tree f b nb /\
  M (fun k => r_block id (C k) f) (n, str "{" ++ tb ++ str "}" ++ s) nb (n', s).
Definition ifs (e : phrase) (t : rstring) : Prop := forall f, (forall k, k <= f k) -> forall n g s, gap g -> clear s -> not_else s ->
  exists nd n', tree_of e nd /\ M (fun k => r_if id (C (f k)) k) (n, t ++ g ++ s) nd (n', s).

(** ** From operands to expressions *)
Lemma climb_first k mn n t nd n' s : first_of k (n, t) = PMatch nd (n', s) ->
  C (S k) mn (n, t) = post_loop id (C k) (S (length s)) mn n (nd, mkSpan n n' id) (n', s).
Proof. unfold ProofProg6.first_of. intros E. cbn [climb]. rw E. reflexivity. Qed.
Lemma atom_reads j e t : atom e t -> reads j e t.
Proof.
  intros H m mn n g s Hm Hj Ha Hf Hr. destruct (H n g s) as (nd & n' & g' & Ht & Hl & HM); auto.
  { eapply follow_more; eauto. pose proof (upto_le j e). lia. }
  exists (nd, mkSpan n n' id), (S (length (g' ++ s))), n', g'. split; auto. split; auto. split; [lia|].
  eapply ev_imp; [apply HM|]. cbn beta. intros k E. cbn [climb]. unfold ProofProg6.first_of in E. rw E. reflexivity.
Qed.
Lemma reads_all j e t m mn n g s : reads j e t -> m <= j -> j <= 9 -> m <= upto j e -> agree mn m -> follow m g s -> (number_last e = true -> norange (g ++ s)) ->
  exists x n' g', tree_of e (fst x) /\ left g g' /\ M (fun k => C k mn) (n, t ++ g ++ s) x (n', g' ++ s).
Proof.
  intros H Hm Hj Hu Ha Hf Hr. destruct (H m mn n g s) as (x & N & n' & g' & Ht & Hl & HN & HE); auto.
  { eapply follow_more; eauto. }
  exists x, n', g'. split; auto. split; auto. apply M_up. apply ev_up, ev_up. apply ev_down, ev_down in HE. eapply ev_imp; [apply HE|].
  cbn beta. intros k E. rewrite E. destruct N as [|N]; [lia|]. cbn [post_loop].
  destruct Hf as [Hg [[_ He]|(H9 & _)]]; [|lia].
  pose proof (posts_stop o id k mn m x n' g' s Ha (left_gap _ _ Hg Hl) He) as E2. rw E2. reflexivity.
Qed.
Lemma reads_full e t : reads 0 e t -> full e t.
Proof.
  intros H mn n g s Hm Hf. apply (reads_all 0 e t 0); auto; try lia; [apply agree_low; auto|]. intros _. apply follow_range; auto.
Qed.
Lemma M_climb mn m n t nd n' g s : agree mn m -> gap g -> ends m s -> M first_of (n, t) nd (n', g ++ s) ->
  M (fun k => C k mn) (n, t) (nd, mkSpan n n' id) (n', g ++ s).
Proof.
  intros Ha Hg He HM. apply M_up, ev_up, ev_up. apply ev_down, ev_down in HM. eapply ev_imp; [apply HM|]. cbn beta.
  intros k E. rewrite (climb_first _ _ _ _ _ _ _ E). cbn [post_loop].
  pose proof (posts_stop o id k mn m (nd, mkSpan n n' id) n' g s Ha Hg He) as E2. rw E2. reflexivity.
Qed.
Lemma ev_sub (Q : nat -> Prop) f : (forall k, k <= f k) -> ev Q -> ev (fun k => Q (f k)).
Proof. intros Hf [k0 H]. exists k0. intros k Hk. apply H. specialize (Hf k). lia. Qed.
Lemma M_sub {A} (p : nat -> P A) f i a j : (forall k, k <= f k) -> M p i a j -> M (fun k => p (f k)) i a j.
Proof. intros Hf. apply (ev_sub (fun k => p k i = PMatch a j)); auto. Qed.
Lemma F_sub {A} (p : nat -> P A) f i : (forall k, k <= f k) -> F p i -> F (fun k => p (f k)) i.
Proof. intros Hf. apply (ev_sub (fun k => p k i = PFail)); auto. Qed.
Lemma full_item e t c r : full e t -> begins t -> In c (str ")]{") -> item node_of X0 all (c :: r) e t.
Proof.
  intros He Hb Hc. split; [intros; apply begins_clear; auto|]. split.
  { destruct Hb as (d & t' & -> & _). discriminate. }
  intros g s n Hg Hs.
  assert (Hf : follow 0 g s).
  { destruct Hs as [Hs|[-> _]].
    - destruct s as [|d s]; [contradiction|]. cbn in Hs. subst. apply follow_close; auto. cbn; tauto.
    - apply follow_close; auto. cbn in *; tauto. }
  destruct (He 0 n g s ltac:(lia) Hf) as (x & n' & g' & Ht & Hl & HM). exists x, n', g'. split; auto.
  split; [eapply left_gap; eauto|]. split; auto. destruct Hl as [->| ->]; cbn; lia.
Qed.
(** Nothing to read at the end of a list or of a block. *)
Definition done_char (c : N) : Prop := In c (str ")]}").
Definition done_text (s : rstring) : Prop := match s with c :: _ => done_char c | [] => True end.
Lemma done_clear s : done_text s -> clear s.
Proof. destruct s as [|c s]; [intros; apply clear_nil|]. intros H. apply clear_solid. each H; repeat split; discriminate || reflexivity. Qed.
Lemma no_more mn g s n : gap g -> done_text s -> F (fun k => C k mn) (n, g ++ s).
Proof.
  intros Hg Hs. pose proof (done_clear s Hs) as Hc.
  assert (HF : F first_of (n, g ++ s)).
  { pose proof (ws_gap g s n Hg Hc) as W.
    assert (KW : forall w m, is_start (hd 0%N w) = true -> kw w (m, s) = PFail).
    { intros w m Hw. destruct s as [|c s]; [destruct w; [discriminate|reflexivity]|]. apply kw_sym; auto. each Hs; reflexivity. }
    pose proof (gap_first g Hg) as Hf.
    assert (K6 : F (fun k => r_if id (C k) k) (n, g ++ s)).
    { apply F_up. cbn [r_if]. eapply (F_bind2 (fun _ => ws_)); [apply M_k, W|]. apply (F_bind (fun _ => kw _)), F_k, KW. reflexivity. }
    assert (K7 : F (fun k => r_switch id (C k)) (n, g ++ s)).
    { unfold r_switch. eapply (F_bind2 (fun _ => ws_)); [apply M_k, W|]. apply (F_bind (fun _ => kw _)), F_k, KW. reflexivity. }
    clear KW W Hc Hg.
    unfold ProofProg6.first_of, prefix_atoms; cbn [app prefixes map fst snd skipn].
    assert (HH : exists c r, g ++ s = c :: r /\ (gap_char c \/ done_char c) \/ g ++ s = []).
    { destruct g as [|d g]; cbn [app].
      - destruct s as [|c s]; [exists 0%N, []; right; auto|]. exists c, s. left. split; auto.
      - exists d, (g ++ s). left. auto. }
    destruct HH as (c & r & [(E & [Hc|Hc])|E]).
    all: unfold inp, rstring in *; rewrite E in *; clear E Hf Hs.
    1-2: each Hc.
    all: do 6 (apply F_skip; [ff|]); apply F_skip; [exact K6|]; apply F_skip; [exact K7|]; do 17 (apply F_skip; [ff|]); apply F_none. }
  apply F_up. eapply ev_imp; [apply HF|]. cbn beta. intros k E. cbn [climb]. unfold ProofProg6.first_of in E. rw E. reflexivity.
Qed.
End Atoms.
