(** String builtins (C47, C50, C56, C57, C58). *)
From Verif Require Import Base Float NumText Vecc Value Ast Arith Args Builtins SpecArith SpecBuiltins ProofBuiltins2.
Ltac Zify.zify_post_hook ::= Z.div_mod_to_equations.

Lemma is_prefix_iff p : forall s, is_prefix p s = true <-> exists t, s = p ++ t.
Proof.
  induction p as [|x p IH]; intros s.
  - cbn. split; eauto.
  - destruct s as [|y s]; cbn.
    + split; [discriminate|intros [t H]; discriminate].
    + rewrite andb_true_iff, N.eqb_eq, IH. split.
      * intros [-> [t ->]]. eauto.
      * intros [t [= -> ->]]. eauto.
Qed.
Lemma is_prefix_app p s t : is_prefix p s = true -> is_prefix p (s ++ t) = true.
Proof. rewrite !is_prefix_iff. intros [u ->]. exists (u ++ t). now rewrite app_assoc. Qed.

Lemma str_join_joined sep l : joined sep l (str_join sep l).
Proof.
  induction l as [|x [|y l] IH]; try constructor; [discriminate|exact IH].
Qed.
Lemma joined_unique sep l a b : joined sep l a -> joined sep l b -> a = b.
Proof.
  intros H; revert b; induction H; intros b Hb; inversion Hb; subst; try congruence.
  f_equal. f_equal. auto.
Qed.

Section Split.
Context (pat : rstring) (Hpat : pat <> []).

Lemma split_go_nonempty s : forall skip cur, split_go pat s skip cur <> [].
Proof using.
  induction s as [|c t IH]; intros skip cur; cbn [split_go]; [discriminate|].
  destruct skip; [|apply IH]. destruct (is_prefix pat (c :: t)); [discriminate|apply IH].
Qed.
Lemma split_go_joined : forall s skip cur,
  (skip <> 0 -> cur = []) -> skip <= length s ->
  joined pat (split_go pat s skip cur) (rev cur ++ skipn skip s).
Proof using Hpat.
  induction s as [|c t IH]; intros skip cur Hs Hl; cbn [split_go].
  - destruct skip; [|cbn in Hl; lia]. rewrite app_nil_r. constructor.
  - destruct skip as [|k].
    + cbn [skipn]. destruct (is_prefix pat (c :: t)) eqn:E.
      * apply is_prefix_iff in E. destruct E as [u Hu]. rewrite Hu.
        assert (HL : length pat - 1 <= length t).
        { apply (f_equal (@length N)) in Hu. rewrite app_length in Hu. cbn in Hu. lia. }
        assert (Hk : skipn (length pat - 1) t = u).
        { destruct pat as [|p0 p']; [congruence|]. cbn in Hu. injection Hu as -> ->. cbn [length].
          rewrite Nat.sub_succ, Nat.sub_0_r. rewrite skipn_app, skipn_all, Nat.sub_diag. reflexivity. }
        apply j_more; [apply split_go_nonempty|].
        specialize (IH (length pat - 1) [] (fun _ => eq_refl) HL). cbn [rev app] in IH.
        now rewrite Hk in IH.
      * specialize (IH 0 (c :: cur) ltac:(congruence) ltac:(lia)).
        cbn [rev skipn] in IH. now rewrite <- app_assoc in IH.
    + specialize (Hs ltac:(discriminate)). subst cur. cbn [skipn]. apply IH; [reflexivity|cbn in Hl; lia].
Qed.

Definition clean (cur s : rstring) : Prop :=
  forall p, p < length cur -> is_prefix pat (skipn p (rev cur ++ s)) = false.
Lemma clean_piece cur s : clean cur s -> ~ occurs pat (rev cur).
Proof using Hpat.
  intros Hc (a & b & E).
  assert (Hlt : length a < length cur).
  { apply (f_equal (@length N)) in E. rewrite rev_length, !app_length in E.
    destruct pat; [congruence|]. cbn in E. lia. }
  specialize (Hc _ Hlt). rewrite E in Hc.
  rewrite <- !app_assoc, skipn_app, skipn_all, Nat.sub_diag in Hc. cbn [skipn app] in Hc.
  rewrite (proj2 (is_prefix_iff pat (pat ++ b ++ s))) in Hc; [discriminate|eauto].
Qed.
Lemma split_go_clean : forall s skip cur,
  (skip <> 0 -> cur = []) -> clean cur s -> Forall (fun x => ~ occurs pat x) (split_go pat s skip cur).
Proof using Hpat.
  induction s as [|c t IH]; intros skip cur Hs Hc; cbn [split_go].
  - constructor; [|constructor]. eapply clean_piece; eauto.
  - assert (H0 : clean [] t) by (intros p Hp; cbn in Hp; lia).
    destruct skip as [|k].
    + destruct (is_prefix pat (c :: t)) eqn:E.
      * constructor; [eapply clean_piece; eauto|]. apply IH; auto.
      * apply IH; [congruence|]. intros p Hp. cbn [rev length] in *. rewrite <- app_assoc. cbn [app].
        destruct (Nat.eq_dec p (length cur)) as [->|Hne]; [|apply Hc; lia].
        rewrite <- (rev_length cur), skipn_app, skipn_all, Nat.sub_diag. exact E.
    + specialize (Hs ltac:(discriminate)). subst cur. apply IH; auto.
Qed.
End Split.

Lemma join_singletons s : str_join [] (map (fun c : N => [c]) s ++ [[]]) = s.
Proof.
  induction s as [|c s IH]; [reflexivity|].
  cbn [map app str_join]. rewrite IH. destruct (map (fun c0 : N => [c0]) s ++ [[]]) eqn:E; [|reflexivity].
  destruct s; discriminate.
Qed.
Theorem split_joined s pat : joined pat (str_split s pat) s.
Proof.
  destruct pat as [|p0 p].
  - assert (E : str_join [] (str_split s []) = s).
    { cbn [str_split]. rewrite <- (join_singletons s) at 2.
      destruct (map (fun c : N => [c]) s ++ [[]]) eqn:E; [destruct s; discriminate|reflexivity]. }
    rewrite <- E at 2. apply str_join_joined.
  - change s with (rev [] ++ skipn 0 s) at 2. apply split_go_joined; [discriminate|congruence|lia].
Qed.
Theorem split_clean s pat : pat <> [] -> Forall (fun x => ~ occurs pat x) (str_split s pat).
Proof.
  intros H. destruct pat; [congruence|]. apply split_go_clean; auto. intros p Hp. cbn in Hp. lia.
Qed.

Lemma replace_split pat to : pat <> [] -> forall s skip cur,
  (skip <> 0 -> cur = []) ->
  rev cur ++ replace_go pat to s skip = str_join to (split_go pat s skip cur).
Proof.
  intros Hp. induction s as [|c t IH]; intros skip cur Hs; cbn [replace_go split_go].
  - now rewrite app_nil_r.
  - destruct skip as [|k].
    + destruct (is_prefix pat (c :: t)).
      * specialize (IH (length pat - 1) [] (fun _ => eq_refl)). cbn [rev app] in IH. rewrite IH.
        cbn [str_join]. destruct (split_go pat t (length pat - 1) []) eqn:E; [|reflexivity].
        exfalso; eapply split_go_nonempty; eauto.
      * rewrite <- IH by congruence. cbn [rev]. now rewrite <- app_assoc.
    + specialize (Hs ltac:(discriminate)). subst cur. apply IH. reflexivity.
Qed.
Theorem replace_is_join s pat to : str_replace s pat to = str_join to (str_split s pat).
Proof.
  destruct pat as [|p0 p].
  - cbn [str_replace str_split].
    assert (E : forall s, str_join to (map (fun c : N => [c]) s ++ [[]]) = flat_map (fun c => c :: to) s).
    { clear. induction s as [|c s IH]; [reflexivity|]. cbn [map app str_join flat_map].
      destruct (map (fun c0 : N => [c0]) s ++ [[]]) eqn:E; [destruct s; discriminate|].
      rewrite IH. reflexivity. }
    rewrite <- E. destruct (map (fun c0 : N => [c0]) s ++ [[]]) eqn:E'; [destruct s; discriminate|reflexivity].
  - apply (replace_split (p0 :: p) to ltac:(discriminate) s 0 []). reflexivity.
Qed.

(** ** Trimming *)
Lemma drop_while_spec p s : exists pre, s = pre ++ drop_while p s /\ Forall (fun c => p c = true) pre /\
  match drop_while p s with [] => True | c :: _ => p c = false end.
Proof.
  induction s as [|c s (pre & E & H1 & H2)]; cbn [drop_while].
  - exists []. repeat split; constructor.
  - destruct (p c) eqn:Ec.
    + exists (c :: pre). split; [cbn; congruence|]. split; [constructor; auto|exact H2].
    + exists []. repeat split; [constructor|exact Ec].
Qed.
Definition starts_clean (p : N -> bool) (s : rstring) : Prop :=
  match s with [] => True | c :: _ => p c = false end.
Lemma trim_both_spec p s : exists pre post, s = pre ++ trim_both p s ++ post /\
  Forall (fun c => p c = true) pre /\ Forall (fun c => p c = true) post /\
  starts_clean p (trim_both p s) /\ starts_clean p (rev (trim_both p s)).
Proof.
  unfold trim_both, trim_start, trim_end.
  destruct (drop_while_spec p s) as (pre & E1 & H1 & H2). set (t := drop_while p s) in *.
  destruct (drop_while_spec p (rev t)) as (post & E2 & H3 & H4). set (u := drop_while p (rev t)) in *.
  exists pre, (rev post). apply (f_equal (@rev N)) in E2. rewrite rev_involutive, rev_app_distr in E2.
  split; [congruence|]. split; [exact H1|]. split; [now apply Forall_rev|].
  rewrite rev_involutive. split; [|exact H4].
  rewrite E2 in H2. destruct (rev u); [exact I|exact H2].
Qed.

Section Strings.
Context {Fn : Type} (m : mode) (o : oracle) (fi : fn_info Fn) (feq : Fn -> Fn -> res bool) (amax : N).
Notation val := (gvalue Fn).
Notation std := (std_call m o fi feq amax).

Theorem split_call s pat : std (str "split") [VString s; VString pat] =
  make_value_array (map VString (str_split s pat)) amax.
Proof. reflexivity. Qed.
Theorem split_default s : std (str "split") [VString s] = std (str "split") [VString s; VString (str " ")].
Proof. reflexivity. Qed.
Lemma join_call (d : list val) s mx sep :
  std (str "join") [VArray d s mx; VString sep] = Ok (VString (str_join sep (map (display o fi) d))).
Proof. reflexivity. Qed.
Lemma display_strings l : map (display o fi) (map (@VString Fn) l) = l.
Proof. rewrite map_map. induction l as [|x l IH]; [reflexivity|]. cbn [map]. now rewrite IH. Qed.

Theorem split_then_join s pat v :
  std (str "split") [VString s; VString pat] = Ok v ->
  std (str "join") [v; VString pat] = Ok (VString s).
Proof.
  rewrite split_call, make_array. destruct (_ <=? _)%N; [|discriminate]. intros [= <-].
  rewrite join_call, display_strings. do 2 f_equal.
  eapply joined_unique; [apply str_join_joined|apply split_joined].
Qed.
Theorem split_pieces s pat :
  exists l, joined pat l s /\ (pat <> [] -> Forall (fun x => ~ occurs pat x) l) /\
    std (str "split") [VString s; VString pat] =
      let d := map VString l in
      if (total_size d <=? amax)%N then Ok (VArray d (total_size d) amax) else Err EArrayTooLarge.
Proof.
  exists (str_split s pat). split; [apply split_joined|]. split; [apply split_clean|].
  rewrite split_call. apply make_array.
Qed.
Theorem replace_spec s pat to :
  exists l r, joined pat l s /\ (pat <> [] -> Forall (fun x => ~ occurs pat x) l) /\ joined to l r /\
    std (str "replace") [VString s; VString pat; VString to] = Ok (VString r).
Proof.
  exists (str_split s pat), (str_replace s pat to). split; [apply split_joined|]. split; [apply split_clean|].
  split; [|reflexivity]. rewrite replace_is_join. apply str_join_joined.
Qed.
Theorem chars_join s :
  exists v, std (str "chars") [VString s] = Ok v /\
    items_of v = Some (map (fun c => VString [c]) s) /\
    std (str "join") [v] = Ok (VString s).
Proof.
  eexists. split; [reflexivity|]. split; [reflexivity|].
  transitivity (@Ok val (VString (str_join [] (map (display o fi) (map (fun c : N => @VString Fn [c]) s)))));
    [reflexivity|]. do 2 f_equal.
  induction s as [|c s IH]; [reflexivity|]. cbn [map str_join] in *. destruct s; [reflexivity|].
  cbn [map] in *. rewrite IH. reflexivity.
Qed.
Theorem trim_spec s :
  exists pre r post, std (str "trim") [VString s] = Ok (VString r) /\ s = pre ++ r ++ post /\
    Forall (fun c => o_whitespace o c = true) pre /\ Forall (fun c => o_whitespace o c = true) post /\
    (forall c t, r = c :: t -> o_whitespace o c = false) /\
    (forall c t, r = t ++ [c] -> o_whitespace o c = false).
Proof.
  destruct (trim_both_spec (o_whitespace o) s) as (pre & post & E & H1 & H2 & H3 & H4).
  exists pre, (trim_both (o_whitespace o) s), post. split; [reflexivity|]. repeat split; auto.
  - intros c t Ec. rewrite Ec in H3. exact H3.
  - intros c t Ec. rewrite Ec, rev_app_distr in H4. exact H4.
Qed.
Theorem starts_with_spec s p : exists b, std (str "starts_with") [VString s; VString p] = Ok (VBool b) /\
  (b = true <-> exists t, s = p ++ t).
Proof. eexists. split; [reflexivity|]. apply is_prefix_iff. Qed.
Theorem ends_with_spec s p : exists b, std (str "ends_with") [VString s; VString p] = Ok (VBool b) /\
  (b = true <-> exists t, s = t ++ p).
Proof.
  eexists. split; [reflexivity|]. unfold str_ends_with. rewrite is_prefix_iff. split.
  - intros [t H]. exists (rev t). apply (f_equal (@rev N)) in H.
    rewrite rev_involutive, rev_app_distr, rev_involutive in H. exact H.
  - intros [t ->]. exists (rev t). apply rev_app_distr.
Qed.
Lemma str_contains_iff s p : str_contains s p = true <-> occurs p s.
Proof.
  unfold occurs. induction s as [|c s IH]; cbn [str_contains]; rewrite orb_true_iff, is_prefix_iff.
  - split; [intros [[t H]|H]; [|discriminate]; exists [], t; exact H|].
    intros (a & b & H). left. destruct a; [exists b; exact H|discriminate].
  - rewrite IH. split.
    + intros [[t H]|(a & b & H)]; [exists [], t; exact H|exists (c :: a), b; cbn; congruence].
    + intros ([|x a] & b & H); [left; eauto|]. right. injection H as -> H. eauto.
Qed.
Theorem contains_spec s p : exists b, std (str "contains") [VString s; VString p] = Ok (VBool b) /\
  (b = true <-> occurs p s).
Proof. eexists. split; [reflexivity|]. apply str_contains_iff. Qed.

(** ** @truncate *)
Lemma char_byte_ascii s n : ascii s -> n < length s -> char_byte s n = Some (N.of_nat n).
Proof.
  intros H; revert n; induction H as [|c s Hc Hs IH]; intros [|n] Hn; cbn in *; try lia; [reflexivity|].
  rewrite IH by lia. f_equal. unfold utf8_len. destruct (N.ltb_spec c 128); lia.
Qed.
Lemma back_up_le cs i : (back_up o cs i <= i)%N.
Proof.
  revert i; induction cs as [|c cs IH]; intros i; cbn [back_up]; [lia|].
  destruct (o_whitespace o c); [|lia]. specialize (IH (i - utf8_len c)%N). lia.
Qed.
Lemma to_u64_of n : (0 <= n < 2 ^ 63)%Z -> to_u64 n = Z.to_N n.
Proof. unfold to_u64. intros. lia. Qed.
Lemma truncate_call s n e : std (str "truncate") [VString s; VInt n; VString e] = b_truncate o s n (Some e).
Proof. reflexivity. Qed.
Theorem truncate_default s n :
  std (str "truncate") [VString s; VInt n] = std (str "truncate") [VString s; VInt n; VString (str "...")].
Proof. reflexivity. Qed.
Theorem truncate_short s n e : (Z.of_nat (length s) <= n < 2 ^ 63)%Z ->
  std (str "truncate") [VString s; VInt n; VString e] = Ok (VString s).
Proof.
  intros H. rewrite truncate_call. unfold b_truncate. rewrite to_u64_of by lia.
  destruct (N.leb_spec (N.of_nat (length s)) (Z.to_N n)); [reflexivity|lia].
Qed.
Theorem truncate_long s n e :
  ascii s -> (Z.of_nat (length e) <= n < Z.of_nat (length s))%Z -> (n < 2 ^ 63)%Z ->
  exists k, std (str "truncate") [VString s; VInt n; VString e] = Ok (VString (firstn k s ++ e)) /\
    (Z.of_nat (length (firstn k s ++ e)) <= n)%Z.
Proof.
  intros Ha Hn Hb. rewrite truncate_call. unfold b_truncate. rewrite to_u64_of by lia.
  destruct (N.leb_spec (N.of_nat (length s)) (Z.to_N n)); [lia|].
  rewrite (char_byte_ascii s) by (auto; lia). cbv zeta.
  set (i := N.min _ _). assert (Hi : (Z.of_N i <= n - Z.of_nat (length e))%Z) by (unfold i; lia).
  pose proof (back_up_le (skipn (N.to_nat i) s) i).
  eexists. split; [reflexivity|]. rewrite app_length, firstn_length. lia.
Qed.
End Strings.

(** A text longer than asked for: the ellipsis is longer than the limit; the limit is in
    characters but the cut is made at a byte position. *)
Theorem truncate_exceeds :
  forall (Fn : Type) m o (fi : fn_info Fn) feq amax,
  (exists s n r, (0 <= n)%Z /\ ascii s /\
     std_call m o fi feq amax (str "truncate") [VString s; VInt n] = Ok (VString r) /\
     (n < Z.of_nat (length r))%Z) /\
  (exists s n r, (3 <= n)%Z /\
     std_call m o fi feq amax (str "truncate") [VString s; VInt n] = Ok (VString r) /\
     (n < Z.of_nat (length r))%Z).
Proof.
  intros Fn m o fi feq amax. split.
  - exists (str "ab"), 1%Z, (str "..."). split; [lia|]. split; [repeat constructor|]. split; [|cbn; lia].
    rewrite truncate_default, truncate_call. unfold b_truncate.
    assert (E : back_up o (skipn 0 (str "ab")) 0 = 0%N)
      by (pose proof (back_up_le o (skipn 0 (str "ab")) 0); lia).
    change (N.min (1 - 3) 2) with 0%N in *.
    transitivity (@Ok (gvalue Fn) (VString (firstn (N.to_nat (back_up o (skipn 0 (str "ab")) 0)) (str "ab") ++ str "...")));
      [reflexivity|]. now rewrite E.
  - exists (repeat 233%N 20), 15%Z, (repeat 233%N 20 ++ str "..."). split; [lia|].
    split; [vm_compute; reflexivity|cbn; lia].
Qed.
