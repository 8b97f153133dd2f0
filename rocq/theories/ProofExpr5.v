(** Texts of expressions are read as the expressions they spell. *)
From Verif Require Import Base Float NumText Ast Parse SpecArith SpecParse SpecExpr ProofParse ProofParse2 ProofParse3 ProofParse4 ProofExpr ProofExpr2 ProofExpr3 ProofExpr4 ProofArithEx.

Scheme spelled_min := Minimality for spelled Sort Prop
  with spelled_args_min := Minimality for spelled_args Sort Prop.
Combined Scheme spelled_both from spelled_min, spelled_args_min.

Lemma op_level o w l : binary_text o = Some (w, l) -> 1 <= l <= 7.
Proof. intros H. ops o; injection H as <- <-; lia. Qed.
Lemma follow_10 m s : follow m s -> follow 10 s.
Proof.
  intros H. destruct H.
  - apply fo_end; auto.
  - apply fo_close; auto.
  - eapply fo_op; eauto. apply op_level in H1. lia.
  - apply fo_open; auto.
Qed.
Lemma follow_8 s : follow 9 s -> follow 8 s.
Proof.
  intros H. destruct H.
  - apply fo_end; auto.
  - apply fo_close; auto.
  - eapply fo_op; eauto. apply op_level in H1. lia.
  - lia.
Qed.
Lemma agree_min mn m : agree mn m -> agree mn (Nat.min m 9).
Proof.
  intros H l Hl. rewrite (H l Hl). destruct (Nat.leb_spec m l), (Nat.leb_spec (Nat.min m 9) l); auto; lia.
Qed.

Section Read.
Context (o : oracle) (id : nat).
Notation cl := (climb o id).
(** Read up to the point where operators of the level [mn] are looked for. *)
Definition reads (j : nat) (e : expr) (t : rstring) : Prop :=
  forall m mn fuel n rest, m <= j -> agree mn m -> follow (S j) rest -> S (length (t ++ rest)) < fuel ->
  exists x N n', tree_of e (fst x) /\ length rest < N /\
    cl fuel mn (n, t ++ rest) = post_loop id (cl (pred fuel)) N mn n x (n', rest).
Definition item (fuel : nat) : P nodeS := ws_ >> on y <- r_node (cl fuel); ws_ >> pret y.
Definition reads_args (l : list expr) (t : rstring) : Prop :=
  match l with
  | [] => spaces t
  | e :: l => 
      (exists g t1, t = g ++ t1 /\ spaces g /\ forall r, clear (t1 ++ r)) /\
      forall fuel n rest, S (length (t ++ 41%N :: rest)) < fuel ->
      exists x n1 r1, item fuel (n, t ++ 41%N :: rest) = PMatch x (n1, r1) /\ tree_of e (fst x) /\
      length r1 <= length (t ++ 41%N :: rest) /\
      forall N, length r1 < N -> exists xs n', pstar_go N (plit (str ",") >> item fuel) (n1, r1) = PMatch xs (n', 41%N :: rest) /\
        trees_of l xs
  end.

(** With nothing left to look for. *)
Lemma enough j e t rest fuel : spelled j e t -> S (length (t ++ rest)) < fuel -> exists q, fuel = S (S (S q)).
Proof using.
  intros H Hl. destruct (spelled_first _ _ _ H) as (c & t' & -> & _). cbn in Hl.
  destruct fuel as [|[|[|q]]]; try lia. exists q; auto.
Qed.
Lemma reads_all j e t : spelled j e t /\ reads j e t -> forall mn fuel n rest, j <= 9 -> agree mn j -> follow j rest ->
  S (length (t ++ rest)) < fuel ->
  exists x n', tree_of e (fst x) /\ cl fuel mn (n, t ++ rest) = PMatch x (n', rest).
Proof using.
  intros [Hs H] mn fuel n rest Hj Ha Hf Hl.
  destruct (H j mn fuel n rest (le_n _) Ha (follow_more _ _ _ Hf (le_S _ _ (le_n _))) Hl) as (x & N & n' & Ht & HN & E).
  exists x, n'. split; auto. rewrite E. destruct N as [|N]; [lia|]. cbn [post_loop].
  destruct (enough _ _ _ _ _ Hs Hl) as (q & ->). cbn [pred].
  rewrite (posts_stop o id q mn j); auto.
Qed.

Lemma item_reads e t g g' fuel n r c : spelled 0 e t /\ reads 0 e t -> spaces g -> spaces g' -> In c [41; 44]%N ->
  S (length (g ++ t ++ g' ++ c :: r)) < fuel ->
  exists x n', tree_of e (fst x) /\ item fuel (n, g ++ t ++ g' ++ c :: r) = PMatch x (n', c :: r).
Proof using.
  intros H Hg Hg' Hc Hl.
  assert (Hc' : In c [41; 93; 44]%N) by (cbn in *; tauto).
  destruct (reads_all _ _ _ H 0 fuel (n + length g) (g' ++ c :: r) ltac:(lia) agree_0 (fo_close _ _ _ _ Hg' Hc')) as (x & n' & Ht & E).
  { rewrite app_length in Hl. lia. }
  exists x, (n' + length g'). split; auto. unfold item.
  rewrite (pbind_m _ _ _ _ _ (ws_spaces g _ n Hg (spelled_clear _ _ _ _ (proj1 H)))).
  unfold r_node. rewrite (pbind_m _ _ _ _ _ E).
  rewrite (pbind_m _ _ _ _ _ (ws_spaces g' (c :: r) n' Hg' (clear_close _ _ Hc'))). reflexivity.
Qed.

Lemma item_spaces fuel g s n : spaces g -> clear s -> item fuel (n + length g, s) = item fuel (n, g ++ s).
Proof using.
  intros Hg Hs. unfold item. rewrite (pbind_m _ _ _ _ _ (ws_spaces g s n Hg Hs)), (pbind_m _ _ _ _ _ (ws_clear s _ Hs)). reflexivity.
Qed.

Lemma args_reads l t fuel n rest : reads_args l t -> S (length (t ++ 41%N :: rest)) < fuel ->
  exists xs n', args_ (cl fuel) (n, 40%N :: t ++ 41%N :: rest) = PMatch xs (n', rest) /\ trees_of l xs.
Proof using.
  intros H Hl.
  assert (C : clear (41%N :: rest)) by (apply clear_close; cbn; auto).
  unfold args_, commasep. rewrite (pbind_m _ _ _ tt (n + 1, t ++ 41%N :: rest)) by reflexivity.
  change (ws_ >> on y <- r_node (cl fuel); ws_ >> pret y) with (item fuel).
  destruct l as [|e l]; cbn [reads_args] in H.
  - exists [], (n + 1 + length t + 1). split; [|constructor].
    rewrite (pbind_m _ _ _ _ _ (ws_spaces t _ (n + 1) H C)).
    rewrite (pbind_m _ _ _ [] (n + 1 + length t, 41%N :: rest)).
    2: { rewrite (pbind_m _ _ _ _ _ (ws_clear _ _ C)).
         rewrite (pbind_m _ _ _ [] (n + 1 + length t, 41%N :: rest)).
         - rewrite (pbind_m _ _ _ None (n + 1 + length t, 41%N :: rest)) by reflexivity.
           rewrite (pbind_m _ _ _ _ _ (ws_clear _ _ C)). reflexivity.
         - unfold psep. rewrite palt_r; [reflexivity|]. unfold psep1. apply pbind_f.
           unfold item. rewrite (pbind_m _ _ _ _ _ (ws_clear _ _ C)). apply pbind_f.
           rewrite app_length in Hl. cbn in Hl. destruct fuel as [|[|fuel]]; try lia. reflexivity. }
    rewrite (pbind_m _ _ _ _ _ (ws_clear _ _ C)). reflexivity.
  - destruct H as [(g & t1 & -> & Hg & Hc) H].
    destruct (H fuel (n + 1) rest Hl) as (x & n1 & r1 & Ei & Ht & _ & Hst).
    destruct (Hst (S (length r1)) ltac:(lia)) as (xs & n' & Es & Hts).
    exists (x :: xs), (n' + 1). split; [|constructor; auto].
    rewrite <- app_assoc in *.
    rewrite (pbind_m _ _ _ _ _ (ws_spaces g _ (n + 1) Hg (Hc _))).
    rewrite <- (item_spaces fuel g _ (n + 1) Hg (Hc (41%N :: rest))) in Ei.
    rewrite (pbind_m _ _ _ (x :: xs) (n', 41%N :: rest)).
    2: { rewrite (pbind_m _ _ _ _ _ (ws_clear _ _ (Hc (41%N :: rest)))).
         rewrite (pbind_m _ _ _ (x :: xs) (n', 41%N :: rest)).
         - rewrite (pbind_m _ _ _ None (n', 41%N :: rest)) by reflexivity.
           rewrite (pbind_m _ _ _ _ _ (ws_clear _ _ C)). reflexivity.
         - unfold psep. rewrite (palt_l _ _ _ (x :: xs) (n', 41%N :: rest)); [reflexivity|]. unfold psep1.
           rewrite (pbind_m _ _ _ _ _ Ei).
           assert (Es' : pstar (plit (str ",") >> item fuel) (n1, r1) = PMatch xs (n', 41%N :: rest)) by exact Es.
           rewrite (pbind_m _ _ _ _ _ Es'). reflexivity. }
    rewrite (pbind_m _ _ _ _ _ (ws_clear _ _ C)). reflexivity.
Qed.

Lemma all_read : (forall j e t, spelled j e t -> spelled j e t /\ reads j e t) /\ (forall l t, spelled_args l t -> reads_args l t).
Proof using.
  apply spelled_both.
  - (* name *) intros k x Hx. assert (Hs : spelled k (EName x) x) by (constructor; auto). split; [auto|].
    intros m mn fuel n rest Hm Ha Hf Hl. destruct (enough _ _ _ _ _ Hs Hl) as (q & ->).
    exists (NIdentifier x, mkSpan n (n + length x) id), (S (length rest)), (n + length x).
    split; [constructor|]. split; [lia|]. rewrite climb_S. cbn [pred].
    rewrite (atom_name o id q x n rest Hx (follow_10 _ _ Hf)). reflexivity.
  - (* number *) intros k z t Hn Hz. assert (Hs : spelled k (ENumber z) t) by (constructor; auto). split; [auto|].
    intros m mn fuel n rest Hm Ha Hf Hl. destruct (enough _ _ _ _ _ Hs Hl) as (q & ->).
    exists (NLiteral (LInt z), mkSpan n (n + length t) id), (S (length rest)), (n + length t).
    split; [constructor|]. split; [lia|]. rewrite climb_S. cbn [pred].
    rewrite (atom_number o id q t z n rest Hn Hz (follow_10 _ _ Hf)). reflexivity.
  - (* parentheses *) intros k e t g g' _ IH Hg Hg'.
    assert (Hs : spelled k e (str "(" ++ g ++ t ++ g' ++ str ")")) by (constructor; auto; apply IH). split; [auto|].
    intros m mn fuel n rest Hm Ha Hf Hl. destruct (enough _ _ _ _ _ Hs Hl) as (q & ->).
    rewrite <- !app_assoc in *.
    change (str "(" ++ g ++ t ++ g' ++ str ")" ++ rest) with (40%N :: g ++ t ++ g' ++ str ")" ++ rest) in Hl. cbn [length] in Hl.
    assert (Hl' : S (length (t ++ g' ++ str ")" ++ rest)) < S (S q)) by (rewrite app_length in Hl; lia).
    destruct (reads_all _ _ _ IH 0 (S (S q)) (n + 1 + length g) (g' ++ str ")" ++ rest) ltac:(lia) agree_0 ltac:(apply fo_close; cbn; auto) Hl')
      as (x & n' & Ht & Ex).
    destruct (atom_paren o id q e t g g' n rest x n' (proj1 IH) Hg Hg') as [n'' E]; auto.
    { change (str "(" ++ g ++ t ++ g' ++ str ")" ++ rest) with (40%N :: g ++ t ++ g' ++ str ")" ++ rest). cbn [length]. lia. }
    exists (fst x, mkSpan n n'' id), (S (length rest)), n''. split; auto. split; [lia|].
    rewrite climb_S. cbn [pred]. rw E. reflexivity.
  - (* binary *) intros k o_ w l a b ta tb g g' Hb Hk _ IHa _ IHb Hg Hg' Hn Hn'.
    assert (Hs : spelled k (EBinary o_ a b) (ta ++ g ++ w ++ g' ++ tb)) by (eapply sp_binary; eauto; [apply IHa|apply IHb]).
    split; [auto|]. intros m mn fuel n rest Hm Ha Hf Hl. destruct (enough _ _ _ _ _ Hs Hl) as (q & ->).
    rewrite <- !app_assoc in *. pose proof (op_level _ _ _ Hb) as Hlv.
    assert (F1 : follow (S l) (g ++ w ++ g' ++ tb ++ rest)).
    { destruct Hg' as [|c g' -> Hg']; [congruence|]. eapply fo_op; eauto. }
    destruct (proj2 IHa m mn (S (S (S q))) n _ ltac:(lia) Ha F1 Hl) as (x & N & n' & Ht & HN & E).
    destruct N as [|N]; [lia|]. cbn [pred] in E.
    assert (Hmn : mn <= l + 8).
    { apply Nat.leb_le. rewrite (Ha l Hlv). apply Nat.leb_le. lia. }
    destruct (posts_op o id q mn x n' g o_ w l g' (tb ++ rest) Hg Hg' Hn' (spelled_clear _ _ _ _ (proj1 IHb)) Hb Hmn) as [n2 E2].
    assert (Lw : 1 <= length g) by (destruct g; [congruence|cbn; lia]).
    assert (Hl' : S (length (tb ++ rest)) < S (S q)) by (rewrite !app_length in *; lia).
    destruct (reads_all _ _ _ IHb (S l + 8) (S (S q)) n2 rest ltac:(lia) (agree_level (S l) ltac:(lia)) (follow_more (S k) (S l) rest Hf ltac:(lia)) Hl')
      as (y & n3 & Hty & Ey).
    exists (NBinary o_ x y, mkSpan n n3 id), N, n3. split; [constructor; auto|]. split; [rewrite !app_length in HN; lia|].
    cbn [pred]. rw E. cbn [post_loop]. rewrite (E2 _ _ Ey). reflexivity.
  - (* unary *) intros k o_ w a t g Hw Hk _ IH Hg.
    assert (Hs : spelled k (EUnary o_ a) (w ++ g ++ t)) by (eapply sp_unary; eauto; apply IH).
    split; [auto|]. intros m mn fuel n rest Hm Ha Hf Hl. destruct (enough _ _ _ _ _ Hs Hl) as (q & ->).
    rewrite <- !app_assoc in *.
    destruct (atom_unary o id q o_ w a t g n rest Hw (proj1 IH) Hg (follow_10 _ _ Hf)) as [n1 E1].
    assert (Lw : 1 <= length w) by (destruct o_; try discriminate Hw; injection Hw as <-; cbn; lia).
    assert (Hl' : S (length (t ++ rest)) < S (S q)) by (rewrite !app_length in *; lia).
    destruct (reads_all _ _ _ IH 17 (S (S q)) n1 rest ltac:(lia) agree_17 (follow_8 _ (follow_more (S k) 9 rest Hf ltac:(lia))) Hl')
      as (y & n3 & Hty & Ey).
    exists (NUnary o_ y, mkSpan n n3 id), (S (length rest)), n3. split; [constructor; auto|]. split; [lia|].
    cbn [pred]. rewrite climb_S. rw (E1 _ _ Ey). reflexivity.
  - (* call *) intros k f args t ta _ IH Hsa IHa.
    assert (Hs : spelled k (ECall f args) (t ++ str "(" ++ ta ++ str ")")) by (apply sp_call; auto; apply IH).
    split; [auto|]. intros m mn fuel n rest Hm Ha Hf Hl. destruct (enough _ _ _ _ _ Hs Hl) as (q & ->).
    rewrite <- !app_assoc in *.
    change (str "(" ++ ta ++ str ")" ++ rest) with (40%N :: ta ++ 41%N :: rest) in *.
    destruct (proj2 IH (Nat.min m 9) mn (S (S (S q))) n _ ltac:(lia) (agree_min _ _ Ha) (fo_open 10 40 (ta ++ 41%N :: rest) ltac:(lia) ltac:(cbn; auto)) Hl)
      as (x & N & n' & Ht & HN & E).
    destruct N as [|N]; [lia|]. cbn [pred] in E.
    destruct (args_reads args ta (S (S q)) n' rest IHa) as (xs & n2 & Ex & Htx).
    { rewrite app_length in Hl. cbn [length] in Hl. lia. }
    exists (NCall x xs, mkSpan n n2 id), N, n2. split; [constructor; auto|]. split; [cbn [length] in HN; rewrite app_length in HN; cbn [length] in HN; lia|].
    cbn [pred]. rw E. cbn [post_loop]. rewrite posts_eq, first_app.
    2: { apply Forall_forall. intros p Hp. apply in_map_iff in Hp as (z & <- & Hz). apply entry_open; cbn; auto. }
    rewrite (pfirst_hit _ _ _ (NCall x xs) (n2, rest)); [reflexivity|].
    rewrite (pbind_m _ _ _ tt (n', 40%N :: ta ++ 41%N :: rest)) by reflexivity.
    rewrite (pbind_m _ _ _ _ _ Ex). reflexivity.
  - (* built-in function *) intros k x args ta Hx Hsa IHa.
    assert (Hs : spelled k (EBuiltin x args) (str "@" ++ x ++ str "(" ++ ta ++ str ")")) by (apply sp_builtin; auto).
    split; [auto|]. intros m mn fuel n rest Hm Ha Hf Hl. destruct (enough _ _ _ _ _ Hs Hl) as (q & ->).
    rewrite <- !app_assoc in *.
    destruct (atom_builtin o id q x n (ta ++ str ")" ++ rest) Hx) as (sp & n1 & E1).
    destruct (args_reads args ta (S (S q)) n1 rest IHa) as (xs & n2 & Ex & Htx).
    { rewrite app_length in Hl. rewrite (app_length x) in Hl. change (str "(" ++ ta ++ str ")" ++ rest) with (40%N :: ta ++ 41%N :: rest) in Hl.
      cbn [length str] in Hl. lia. }
    exists (NBuiltinCall (x, sp) xs, mkSpan n n2 id), (S (length rest)), n2. split; [constructor; auto|]. split; [lia|].
    cbn [pred]. rewrite climb_S. rw (E1 _ _ Ex). reflexivity.
  - (* index *) intros k a i ta ti g g' _ IHa _ IHi Hg Hg'.
    assert (Hs : spelled k (EIndex a i) (ta ++ str "[" ++ g ++ ti ++ g' ++ str "]")) by (apply sp_index; auto; [apply IHa|apply IHi]).
    split; [auto|]. intros m mn fuel n rest Hm Ha Hf Hl. destruct (enough _ _ _ _ _ Hs Hl) as (q & ->).
    rewrite <- !app_assoc in *.
    change (str "[" ++ g ++ ti ++ g' ++ str "]" ++ rest) with (91%N :: g ++ ti ++ g' ++ 93%N :: rest) in *.
    destruct (proj2 IHa (Nat.min m 9) mn (S (S (S q))) n _ ltac:(lia) (agree_min _ _ Ha) (fo_open 10 91 (g ++ ti ++ g' ++ 93%N :: rest) ltac:(lia) ltac:(cbn; auto)) Hl)
      as (x & N & n' & Ht & HN & E).
    destruct N as [|N]; [lia|]. cbn [pred] in E.
    destruct (reads_all _ _ _ IHi 0 (S (S q)) (n' + 1 + length g) (g' ++ 93%N :: rest) ltac:(lia) agree_0 (fo_close 0 g' 93 rest Hg' ltac:(cbn; auto)))
      as (y & n3 & Hty & Ey).
    { rewrite app_length in Hl. cbn [length] in Hl. rewrite app_length in Hl. lia. }
    exists (NIndexGet x y, mkSpan n (n3 + length g' + 1) id), N, (n3 + length g' + 1). split; [constructor; auto|].
    split; [cbn [length] in HN; rewrite !app_length in HN; cbn [length] in HN; lia|].
    cbn [pred]. rw E. cbn [post_loop]. rewrite posts_eq, first_app.
    2: { apply Forall_forall. intros p Hp. apply in_map_iff in Hp as (z & <- & Hz). apply entry_open; cbn; auto. }
    rewrite pfirst_skip by reflexivity.
    rewrite (pfirst_hit _ _ _ (NIndexGet x y) (n3 + length g' + 1, rest)); [reflexivity|].
    rewrite (pbind_m _ _ _ _ _ (ws_clear _ n' (clear_open 91 _ ltac:(cbn; auto)))).
    rewrite (pbind_m _ _ _ tt (n' + 1, g ++ ti ++ g' ++ 93%N :: rest)) by reflexivity.
    rewrite (pbind_m _ _ _ _ _ (ws_spaces g _ (n' + 1) Hg (spelled_clear _ _ _ _ (proj1 IHi)))).
    unfold r_node. rewrite (pbind_m _ _ _ _ _ Ey).
    rewrite (pbind_m _ _ _ _ _ (ws_spaces g' _ n3 Hg' (clear_close 93 rest ltac:(cbn; auto)))). reflexivity.
  - (* no arguments *) intros g Hg. exact Hg.
  - (* last *) intros e t g g' _ IH Hg Hg'. split.
    { exists g, (t ++ g'). split; auto. split; auto. intros r. rewrite <- app_assoc. eapply spelled_clear; apply IH. }
    intros fuel n rest Hl. rewrite <- !app_assoc in *.
    destruct (item_reads e t g g' fuel n rest 41 IH Hg Hg' ltac:(cbn; auto) Hl) as (x & n' & Ht & E).
    exists x, n', (41%N :: rest). split; auto. split; auto. split; [rewrite !app_length; lia|].
    intros N HN. destruct N as [|N]; [lia|]. exists [], n'. split; [reflexivity|constructor].
  - (* more *) intros e e' l t t' g g' _ IH _ IHl Hg Hg'. split.
    { exists g, (t ++ g' ++ str "," ++ t'). split; auto. split; auto. intros r. rewrite <- app_assoc. eapply spelled_clear; apply IH. }
    intros fuel n rest Hl. rewrite <- !app_assoc in *.
    change (str "," ++ t' ++ 41%N :: rest) with (44%N :: t' ++ 41%N :: rest) in *.
    destruct (item_reads e t g g' fuel n (t' ++ 41%N :: rest) 44 IH Hg Hg' ltac:(cbn; auto) Hl) as (x & n' & Ht & E).
    exists x, n', (44%N :: t' ++ 41%N :: rest). split; auto. split; auto. split; [rewrite !app_length; lia|].
    intros N HN. destruct N as [|N]; [lia|]. destruct IHl as [_ IHl].
    destruct (IHl fuel (n' + 1) rest) as (y & n1 & r1 & Ey & Hty & Hr1 & Hst).
    { rewrite !app_length in Hl. cbn [length] in Hl. rewrite !app_length in *. cbn [length] in *. lia. }
    assert (Lr : length r1 < N). 
    { cbn [length] in HN. unfold rstring in *. lia. }
    destruct (Hst N Lr) as (xs & n2 & Es & Hts).
    exists (y :: xs), n2. split; [|constructor; auto].
    cbn [pstar_go]. rewrite (pbind_m _ _ _ tt (n' + 1, t' ++ 41%N :: rest)) by reflexivity. rw Ey. rw Es. reflexivity.
Qed.

Lemma tree_settles e n sp : tree_of e n -> is_expression n = true /\ settle n sp = n.
Proof using. destruct 1; split; reflexivity. Qed.

(** A program that is one expression. *)
Lemma expression_program e t g g' fuel : spelled 0 e t -> spaces g -> spaces g' -> S (length (g ++ t ++ g')) < fuel ->
  exists n sp i, parse_code o fuel (g ++ t ++ g') id = PMatch [(n, sp)] i /\ tree_of e n.
Proof using.
  intros Hs Hg Hg' Hl.
  pose proof (proj1 all_read _ _ _ Hs) as R.
  assert (F : follow 0 g') by (rewrite <- (app_nil_r g'); apply fo_end; auto).
  destruct (reads_all _ _ _ R 0 fuel (length g) g' ltac:(lia) agree_0 F) as (x & n' & Ht & E).
  { rewrite app_length in Hl. lia. }
  destruct (enough 0 e t g' fuel Hs) as (q & ->). { rewrite app_length in Hl. lia. }
  assert (W : forall n, ws_ (n, g') = PMatch tt (n + length g', [])).
  { intros n. rewrite <- (app_nil_r g') at 1. apply ws_spaces; auto. apply clear_nil. }
  destruct x as [x sp]. exists x, sp, (n' + length g', []). split; auto.
  unfold parse_code, whole.
  assert (HR : r_code o id (S (S (S q))) (0, g ++ t ++ g') = PMatch [(x, sp)] (n' + length g', [])); [|rw HR; reflexivity].
  unfold r_code.
  rewrite (pbind_m _ _ _ _ _ (ws_spaces g (t ++ g') 0 Hg (spelled_clear _ _ _ _ Hs))).
  rewrite (pbind_m _ _ _ (length g) (length g, t ++ g')) by reflexivity.
  assert (HS : psep (cl (S (S (S q))) 0) (plit (str ";") <|> ws_) (length g, t ++ g') = PMatch [(x, sp)] (n', g')).
  { unfold psep. rewrite (palt_l _ _ _ [(x, sp)] (n', g')); [reflexivity|].
    unfold psep1. rewrite (pbind_m _ _ _ _ _ E).
    rewrite (pbind_m _ _ _ [] (n', g')); [reflexivity|].
    unfold pstar. cbn [pstar_go].
    rewrite pbind_m with (a := tt) (j := (n' + length g', [])).
    - rewrite climb_nil. reflexivity.
    - rewrite palt_r; [apply W|]. destruct Hg' as [|c g' -> _]; reflexivity. }
  rewrite (pbind_m _ _ _ (Some [(x, sp)]) (n', g')).
  2: { unfold popt. rewrite HS. reflexivity. }
  rewrite (pbind_m _ _ _ n' (n', g')) by reflexivity.
  rewrite (pbind_m _ _ _ _ _ (W n')). unfold pret. f_equal.
  destruct (tree_settles e x sp Ht) as [T1 T2].
  cbn [add_implicit_none]. rewrite T1, T2. destruct x; try reflexivity; inversion Ht.
Qed.
End Read.

(** A tree shows one expression, so a text spells one. *)
Scheme tree_min := Minimality for tree_of Sort Prop with trees_min := Minimality for trees_of Sort Prop.
Combined Scheme tree_both from tree_min, trees_min.
Lemma tree_unique : (forall e n, tree_of e n -> forall e', tree_of e' n -> e = e') /\
  (forall l nl, trees_of l nl -> forall l', trees_of l' nl -> l = l').
Proof.
  apply tree_both.
  - intros x e' H. inversion H; auto.
  - intros x e' H. inversion H; auto.
  - intros o a b na nb _ IHa _ IHb e' H. inversion H; subst. f_equal; auto.
  - intros o a na _ IHa e' H. inversion H; subst. f_equal; auto.
  - intros f args nf nargs _ IHf _ IHa e' H. inversion H; subst. f_equal; auto.
  - intros x sp args nargs _ IHa e' H. inversion H; subst. f_equal; auto.
  - intros a i na ni _ IHa _ IHi e' H. inversion H; subst. f_equal; auto.
  - intros l' H. inversion H; auto.
  - intros e l n nl _ IHe _ IHl l' H. inversion H; subst. f_equal; auto.
Qed.
Lemma spelling_unique e e' t : spelled 0 e t -> spelled 0 e' t -> e = e'.
Proof.
  intros H H'.
  assert (N : spaces []) by constructor.
  destruct (expression_program no_oracle 0 e t [] [] (S (S (length ([] ++ t ++ [])))) H N N ltac:(lia)) as (n & sp & i & E & T).
  destruct (expression_program no_oracle 0 e' t [] [] (S (S (length ([] ++ t ++ [])))) H' N N ltac:(lia)) as (n' & sp' & i' & E' & T').
  rewrite E in E'. injection E' as <- <- <-. eapply tree_unique; eauto.
Qed.
