(** Texts of expressions: what each kind of operand is read as. *)
From Verif Require Import Base Float NumText Ast Parse SpecArith SpecParse SpecExpr ProofParse ProofParse2 ProofParse3 ProofParse4 ProofExpr ProofExpr2 ProofExpr3.

Section Atoms.
Context (o : oracle) (id k : nat).
Notation fu := (S (S k)).
Notation cl := (climb o id fu).
Notation atoms := (prefix_atoms o id cl fu).

(** No assignment. *)
Lemma follow_assign m s n {B} (q : option op -> nodeS -> P B) : follow m s ->
  (ws_ >> on f <- popt r_op; plit (str "=") >> ws_ >> on n <- cl 3; q f n) (n, s) = PFail.
Proof.
  intros [g Hg|g c r Hg Hc|g o_ w l r Hg Hn Hb Hl|c r Hm Hc].
  - rewrite (pbind_m _ _ _ _ _ (ws_spaces g [] n Hg clear_nil)). reflexivity.
  - rewrite (pbind_m _ _ _ _ _ (ws_spaces g (c :: r) n Hg (clear_close c r Hc))).
    cbn in Hc. decompose [or] Hc; subst; try contradiction; reflexivity.
  - rewrite (pbind_m _ _ _ _ _ (ws_spaces g _ n Hg (clear_op _ _ _ r Hb))). ops o_; injection Hb as <- <-; reflexivity.
  - rewrite (pbind_m _ _ _ _ _ (ws_clear (c :: r) n (clear_open c r Hc))).
    cbn in Hc. decompose [or] Hc; subst; try contradiction; reflexivity.
Qed.

Ltac is_kw x := apply (kw_name _ x); auto; [repeat constructor|unfold keywords; cbn; tauto].
Lemma atom_name x n rest : is_name x -> follow 10 rest ->
  pfirst atoms (n, x ++ rest) = PMatch (NIdentifier x) (n + length x, rest).
Proof using.
  intros Hx Hf. pose proof (follow_breaks _ _ Hf) as Hb.
  destruct (name_word x Hx) as (c & t & Ex & Hc & _).
  assert (Hcl : clear (x ++ rest)) by (rewrite Ex; apply clear_solid, letter_solid; auto).
  pose proof (ws_clear _ n Hcl) as Hw.
  assert (PL : forall y ys {B} (q : unit -> P B), is_start y = false -> pbind (plit (y :: ys)) q (n, x ++ rest) = PFail).
  { intros y ys B q Hy. rewrite Ex. apply pbind_f, plit_ne, letter_ne; auto. }
  unfold prefix_atoms. cbn [app prefixes map fst snd].
  do 4 (rewrite pfirst_skip; [|is_kw x]).
  rewrite pfirst_skip.
  2: { unfold ident, sp_of. rewrite (pbind_m _ _ _ (x, mkSpan n (n + length x) id) (n + length x, rest)).
       - apply follow_assign with (m := 10); auto.
       - rewrite (pbind_m _ _ _ n (n, x ++ rest)) by reflexivity. rewrite (pbind_m _ _ _ _ _ (ident_name x n rest Hx Hb)). reflexivity. }
  rewrite pfirst_skip; [|is_kw x].
  rewrite pfirst_skip.
  2: { cbn [r_if]. rewrite (pbind_m _ _ _ _ _ Hw). is_kw x. }
  rewrite pfirst_skip.
  2: { unfold r_switch. rewrite (pbind_m _ _ _ _ _ Hw). is_kw x. }
  do 5 (rewrite pfirst_skip; [|is_kw x]).
  rewrite pfirst_skip by (rewrite Ex; apply pbind_f, int_letter; auto).
  do 3 (rewrite pfirst_skip; [|apply PL; reflexivity]).
  rewrite pfirst_skip by (apply pbind_f, literal_name; auto).
  do 4 (rewrite pfirst_skip; [|apply PL; reflexivity]).
  erewrite pfirst_hit; [reflexivity|]. rewrite (pbind_m _ _ _ _ _ (ident_name x n rest Hx Hb)). reflexivity.
Qed.

Lemma atom_number t z n rest : numeral 10 t z -> (z < 2 ^ 63)%Z -> follow 10 rest ->
  pfirst atoms (n, t ++ rest) = PMatch (NLiteral (LInt z)) (n + length t, rest).
Proof using.
  intros Hn Hz Hf. destruct (numeral_digits _ _ Hn) as (H0 & H1 & H2).
  assert (I32 : r_INT32 (n, t ++ rest) = PMatch (or0 (fits (- 2 ^ 31) (2 ^ 31 - 1) z)) (n + length t, rest)).
  { apply (int_app _ _ _ t z n rest false); auto. eapply follow_first; eauto. }
  pose proof (literal_app o (S k) t z false n rest Hn (follow_first _ _ Hf) (follow_colon _ _ Hf)) as L. cbn [app] in L.
  replace (or0 (fits i64_min i64_max z)) with z in L.
  2: { unfold fits, or0, i64_min, i64_max. destruct ((- 2 ^ 63 <=? z) && (z <=? 2 ^ 63 - 1))%Z eqn:E; auto. lia. }
  destruct t as [|c t]; [congruence|]. inversion H1 as [|? ? Hc _]; subst.
  assert (Hc' : (48 <= c <= 57)%N) by (unfold is_digit in Hc; lia).
  cbn [app] in *. unfold prefix_atoms. cbn [app prefixes map fst snd].
  assert (KW : forall w {B} (q : unit -> P B), (57 <? hd 0 w)%N = true -> pbind (kw w) q (n, c :: t ++ rest) = PFail).
  { intros w B q Hx. apply pbind_f, kw_hi; [auto|lia]. }
  assert (PL : forall w {B} (q : unit -> P B), w <> [] -> is_digit (hd 0%N w) = false -> pbind (plit w) q (n, c :: t ++ rest) = PFail).
  { intros w B q Hw Hx. destruct w as [|x xs]; [congruence|]. apply pbind_f, plit_ne.
    cbn [hd] in Hx. apply N.eqb_neq. congruence. }
  do 4 (rewrite pfirst_skip; [|apply KW; reflexivity]).
  rewrite pfirst_skip by (apply pbind_f, ident_digit; auto).
  rewrite pfirst_skip; [|apply KW; reflexivity].
  rewrite pfirst_skip.
  2: { cbn [r_if]. rewrite (pbind_m _ _ _ _ _ (ws_digit n c _ Hc)). apply KW; reflexivity. }
  rewrite pfirst_skip.
  2: { unfold r_switch. rewrite (pbind_m _ _ _ _ _ (ws_digit n c _ Hc)). apply KW; reflexivity. }
  do 5 (rewrite pfirst_skip; [|apply KW; reflexivity]).
  rewrite pfirst_skip.
  2: { rewrite (pbind_m _ _ _ _ _ I32). apply (follow_colon _ _ Hf). }
  do 3 (rewrite pfirst_skip; [|apply PL; [discriminate|reflexivity]]).
  erewrite pfirst_hit; [reflexivity|]. rewrite (pbind_m _ _ _ _ _ L). reflexivity.
Qed.

(** Parentheses. *)
Lemma atom_paren e t g g' n rest x n' : spelled 0 e t -> spaces g -> spaces g' ->
  length (str "(" ++ g ++ t ++ g' ++ str ")" ++ rest) < fu ->
  cl 0 (n + 1 + length g, t ++ g' ++ str ")" ++ rest) = PMatch x (n', g' ++ str ")" ++ rest) ->
  exists n'', pfirst atoms (n, str "(" ++ g ++ t ++ g' ++ str ")" ++ rest) = PMatch (fst x) (n'', rest).
Proof using.
  intros Hs Hg Hg' Hk Hx.
  set (s := t ++ g' ++ str ")" ++ rest) in *.
  assert (Hcl : clear s) by (eapply spelled_clear; eauto).
  assert (Hc' : clear (str ")" ++ rest)) by (apply clear_close; cbn; auto).
  assert (Hls : length s < S k).
  { change (str "(" ++ g ++ s) with (40%N :: (g ++ s)) in Hk. cbn [length] in Hk. rewrite app_length in Hk. lia. }
  assert (W0 : plit (str "(") (n, str "(" ++ g ++ s) = PMatch tt (n + 1, g ++ s)) by reflexivity.
  pose proof (ws_spaces g s (n + 1) Hg Hcl) as W1.
  pose proof (ws_spaces g' _ n' Hg' Hc') as W2.
  assert (LP : forall fu, length s < fu -> forall {B} (q : literal -> P B), 
     (plit (str "(") >> ws_ >> on l <- r_literal o fu; ws_ >> plit (str ",") >> q l) (n, str "(" ++ g ++ s) = PFail).
  { intros f Hfu B q.
    rewrite (pbind_m _ _ _ _ _ W0), (pbind_m _ _ _ _ _ W1).
    assert (NC : match r_literal o f (n + 1 + length g, s) with PMatch _ i => nocomma (snd i) | _ => True end).
    { apply (spelled_literal o 0 e t Hs); [apply fo_close; cbn; auto|apply nocomma_close; auto]. }
    unfold pbind at 1.
    pose proof (eat_literal o f ((n + 1 + length g, s) : inp) Hfu) as F.
    unfold rstring in *. destruct (r_literal o f (n + 1 + length g, s)) as [l [a b]| |]; [|reflexivity|contradiction].
    apply NC. }
  assert (LF : forall j, length s < j -> r_literal o (S j) (n, str "(" ++ g ++ s) = PFail).
  { intros j Hj. cbn [r_literal]. do 8 (rewrite palt_r by reflexivity). rewrite palt_r by (apply LP; exact Hj). reflexivity. }
  unfold prefix_atoms. cbn [app prefixes map fst snd].
  do 17 (rewrite pfirst_skip by reflexivity).
  rewrite pfirst_skip.
  2: { apply pbind_f, (LF (S k)). exact Hls. }
  rewrite pfirst_skip by reflexivity.
  rewrite pfirst_skip.
  2: { rewrite (pbind_m _ _ _ _ _ W0), (pbind_m _ _ _ _ _ W1). unfold r_node at 1. rewrite (pbind_m _ _ _ _ _ Hx).
       rewrite (pbind_m _ _ _ _ _ W2). reflexivity. }
  rewrite pfirst_skip by (apply (LP (S (S k))); lia).
  rewrite pfirst_skip by reflexivity.
  rewrite pfirst_skip by reflexivity.
  exists (n' + length g' + 1).
  apply pfirst_hit. rewrite (pbind_m _ _ _ _ _ W0), (pbind_m _ _ _ _ _ W1). unfold r_node at 1. rewrite (pbind_m _ _ _ _ _ Hx).
  rewrite (pbind_m _ _ _ _ _ W2). reflexivity.
Qed.

(** Unary operators. *)
Lemma atom_unary o_ w e t g n rest : unary_text o_ = Some w -> spelled 8 e t -> spaces g -> follow 10 rest ->
  exists n', forall x i, cl 17 (n', t ++ rest) = PMatch x i ->
    pfirst atoms (n, w ++ g ++ t ++ rest) = PMatch (NUnary o_ x) i.
Proof using.
  intros Hw Hs Hg Hf.
  assert (Hcl : clear (t ++ rest)) by (eapply spelled_clear; eauto).
  exists (n + 1 + length g). intros x i Hx.
  pose proof (ws_spaces g _ (n + 1) Hg Hcl) as W1.
  assert (IR : forall {B} (q : Z -> Z -> P B), (on s <- r_INT32; ws_ >> plit (str ":") >> ws_ >> on e <- r_INT32; q s e) (n, str "-" ++ g ++ t ++ rest) = PFail).
  { intros B q. change (str "-" ++ g ++ t ++ rest) with (45%N :: g ++ t ++ rest).
    assert (U : forall c s, is_digit c = false -> r_INT32 (n, 45%N :: c :: s) = PFail).
    { intros c s Hd.
      assert (R : forall j, prun1 is_digit (j, c :: s) = PFail).
      { intros j. unfold prun1, prun, pbind. cbn [fst snd prun_go]. rewrite Hd. reflexivity. }
      unfold r_INT32, r_int. do 3 (rewrite palt_r by reflexivity).
      rewrite (pbind_m _ _ _ (Some tt) (n + 1, c :: s)) by reflexivity. apply pbind_f, R. }
    destruct Hg as [|d g -> Hg].
    - cbn [app]. destruct (spelled_first _ _ _ Hs) as (c & t' & Et & Hso).
      destruct (is_digit c) eqn:Ed.
      + destruct (spelled_lead _ _ _ Hs rest Hf) as (dd & r & z & Hn & Eq & Ha & Hcol).
        { rewrite Et. exact Ed. }
        rw Eq. rewrite (pbind_m _ _ _ (or0 (fits (- 2 ^ 31) (2 ^ 31 - 1) (- z))) (n + length ([45%N] ++ dd), r)).
        * apply Hcol.
        * apply (int_app _ _ _ dd z n r true); auto.
      + rewrite Et. cbn [app]. apply pbind_f, U; auto.
    - cbn [app]. apply pbind_f, U; auto. }
  destruct o_; cbn in Hw; try discriminate; injection Hw as <-;
  unfold prefix_atoms; cbn [app prefixes map fst snd];
  do 13 (rewrite pfirst_skip by reflexivity).
  - rewrite pfirst_skip by reflexivity. apply pfirst_hit.
    rewrite (pbind_m _ _ _ tt (n + 1, g ++ t ++ rest)) by reflexivity.
    rewrite (pbind_m _ _ _ _ _ W1), (pbind_m _ _ _ _ _ Hx). reflexivity.
  - rewrite pfirst_skip by apply IR. rewrite pfirst_skip by reflexivity. apply pfirst_hit.
    rewrite (pbind_m _ _ _ tt (n + 1, g ++ t ++ rest)) by reflexivity.
    rewrite (pbind_m _ _ _ _ _ W1), (pbind_m _ _ _ _ _ Hx). reflexivity.
  - do 3 rewrite pfirst_skip by reflexivity. apply pfirst_hit.
    rewrite (pbind_m _ _ _ tt (n + 1, g ++ t ++ rest)) by reflexivity.
    rewrite (pbind_m _ _ _ _ _ W1), (pbind_m _ _ _ _ _ Hx). reflexivity.
Qed.

(** Built-in functions. *)
Lemma atom_builtin x n s : is_name x ->
  exists sp n', forall a i, args_ cl (n', str "(" ++ s) = PMatch a i ->
    pfirst atoms (n, str "@" ++ x ++ str "(" ++ s) = PMatch (NBuiltinCall (x, sp) a) i.
Proof using.
  intros Hx. exists (mkSpan (n + 1) (n + 1 + length x) id), (n + 1 + length x). intros a i Ha.
  unfold prefix_atoms. cbn [app prefixes map fst snd].
  do 17 (rewrite pfirst_skip by reflexivity).
  do 4 (rewrite pfirst_skip by reflexivity).
  apply pfirst_hit.
  rewrite (pbind_m _ _ _ tt (n + 1, x ++ str "(" ++ s)) by reflexivity.
  rewrite (pbind_m _ _ _ (x, mkSpan (n + 1) (n + 1 + length x) id) (n + 1 + length x, str "(" ++ s)).
  2: { unfold ident, sp_of. rewrite (pbind_m _ _ _ (n + 1) (n + 1, x ++ str "(" ++ s)) by reflexivity.
       rewrite (pbind_m _ _ _ _ _ (ident_name x (n + 1) (str "(" ++ s) Hx eq_refl)). reflexivity. }
  rewrite (pbind_m _ _ _ tt (n + 1 + length x, str "(" ++ s)) by reflexivity.
  rewrite (pbind_m _ _ _ _ _ Ha). reflexivity.
Qed.
End Atoms.
