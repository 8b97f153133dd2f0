(** The texts of errors tell them apart (C90). *)
From Verif Require Import Base RleVec Float NumText SpecArith SpecBuiltins Value Ast Arith Compiler Vm Report SpecText ProofText SpecReport.

(** Which kind of error a text is of, as far as its beginning shows. *)
Definition beginnings : list rstring :=
  [str "NameError: name "; str "NameError: builtin "; str "NameError: external ";
   str "OverflowError: an array"; str "OverflowError: cannot define"; str "OverflowError: cannot use"; str "OverflowError: cannot unpack";
   str "OverflowError: stack o"; str "OverflowError: stack u"; str "OverflowError: instruction"; str "OverflowError: jump"; str "OverflowError: string"; str "OverflowError: array";
   str "TypeError: expected"; str "TypeError: cannot convert"; str "TypeError: cannot compare"; str "TypeError: cannot parse"; str "TypeError: function";
   str "TypeError: cannot use"; str "TypeError: unsupported binary"; str "TypeError: cannot unpack `"; str "TypeError: cannot unpack a"; str "TypeError: unsupported unary";
   str "TypeError: cannot iterate"; str "TypeError: failed"; str "TypeError: cannot hash"; str "BuiltinError"; str "IncludeError: includes"; str "IncludeError: unresolved";
   str "IncludeError: could"; str "IncludeError: circular"; str "SyntaxError: unexpected"; str "SyntaxError: statement"; str "SyntaxError: return"; str "index"; str "Division";
   str "Runtime"; str "Memory"; str "Halt"].
Fixpoint guess (l : list rstring) (t : rstring) : nat :=
  match l with [] => 0 | p :: r => if is_prefix p t then 0 else S (guess r t) end.
Definition kind (e : error) : nat :=
  match e with
  | ENameUndefined _ | ENameAlreadyDefined _ => 0 | EUndefinedBuiltin _ => 1
  | EExternalNotGlobal _ | EExternalRedefined _ | EExternalNotDefined _ => 2
  | ETooManyItems => 3 | ETooManyParams => 4 | ETooManyArgs => 5 | ETooMuchToUnpack => 6
  | EStackOverflow => 7 | EStackUnderflow => 8 | EInstructionOverflow => 9 | EJumpTooLarge => 10 | EStringTooLarge => 11 | EArrayTooLarge => 12
  | EExpected _ _ => 13 | ECannotConvert _ _ => 14 | ECannotCompare _ _ => 15 | EParseError _ _ => 16 | EMismatchedArity _ _ _ => 17
  | ENotCallable _ => 18 | EUnsupportedBinary _ _ _ => 19 | EUnpackable _ => 20 | EInsufficientValues _ _ => 21 | EUnsupportedUnary _ _ => 22
  | ENotIterable _ => 23 | EFailedToIterate => 24 | ECannotHash _ => 25 | EBuiltin _ => 26 | EIncludeNotTopLevel => 27 | EUnresolvedInclude _ => 28
  | ECouldNotResolve _ => 29 | ECircularInclude _ => 30 | EUnexpectedToken _ => 31 | EStatementAsExpression => 32 | EReturnOutsideFunction => 33
  | EIndexError _ => 34 | EZeroDivision => 35 | ERuntimeLimit _ => 36 | EMemoryLimit => 37 | EHalt => 38
  end.

(** Cutting a text at the first or last of a character. *)
Lemma cut_first (c : N) a : forall b x y, ~ In c a -> ~ In c b -> a ++ c :: x = b ++ c :: y -> a = b /\ x = y.
Proof.
  induction a as [|d a IH]; intros [|e b] x y Ha Hb H; cbn in *.
  - injection H as ->. auto.
  - injection H as H1 H2. exfalso. apply Hb. auto.
  - injection H as H1 H2. exfalso. apply Ha. auto.
  - injection H as <- H2. destruct (IH b x y) as [-> ->]; auto.
Qed.
Lemma cut_last (c : N) a b x y : ~ In c a -> ~ In c b -> x ++ c :: a = y ++ c :: b -> a = b /\ x = y.
Proof.
  intros Ha Hb H. apply (f_equal (@rev N)) in H. rewrite !rev_app_distr in H. cbn [rev] in H. rewrite <- !app_assoc in H. cbn [app] in H.
  apply cut_first in H; [|now rewrite <- in_rev|now rewrite <- in_rev]. destruct H as [H1 H2].
  split; [rewrite <- (rev_involutive a), H1|rewrite <- (rev_involutive x), H2]; apply rev_involutive.
Qed.
Lemma tick_in s : tickless s -> ~ In 96%N s.
Proof. intros H HI. unfold tickless in H. rewrite Forall_forall in H. exact (H _ HI eq_refl). Qed.

Lemma digit_text_range d : (0 <= d < 10)%Z -> (48 <= digit_text d <= 57)%N.
Proof. intros H. assert (D : (d = 0 \/ d = 1 \/ d = 2 \/ d = 3 \/ d = 4 \/ d = 5 \/ d = 6 \/ d = 7 \/ d = 8 \/ d = 9)%Z) by lia.
  repeat destruct D as [->|D]; try subst d; vm_compute; split; discriminate. Qed.
Lemma decimal_chars n t : decimal n t -> Forall (fun c => 48 <= c <= 57)%N t.
Proof.
  intros (ds & Hd & ->). assert (HF : Forall (fun d => 0 <= d < 10)%Z ds) by apply Hd. clear Hd.
  induction HF; cbn; constructor; [apply digit_text_range; assumption|assumption].
Qed.
Lemma int_text_chars z : Forall (fun c => c = 45 \/ 48 <= c <= 57)%N (int_text z).
Proof.
  pose proof (integer_shown z) as H. unfold integer_text in H. destruct (z <? 0)%Z.
  - destruct H as (t & Ht & ->). constructor; [left; reflexivity|]. eapply Forall_impl; [|exact (decimal_chars _ _ Ht)]. cbn. auto.
  - eapply Forall_impl; [|exact (decimal_chars _ _ H)]. cbn. auto.
Qed.
Lemma digits_differ a b ds : digits_of 10 ds a -> digits_of 10 ds b -> a = b.
Proof. intros H1 H2. destruct H1 as (_ & E1 & _), H2 as (_ & E2 & _). congruence. Qed.

Lemma digit_text_inj d e : (0 <= d < 10)%Z -> (0 <= e < 10)%Z -> digit_text d = digit_text e -> d = e.
Proof.
  intros Hd He.
  assert (D : (d = 0 \/ d = 1 \/ d = 2 \/ d = 3 \/ d = 4 \/ d = 5 \/ d = 6 \/ d = 7 \/ d = 8 \/ d = 9)%Z) by lia.
  assert (E : (e = 0 \/ e = 1 \/ e = 2 \/ e = 3 \/ e = 4 \/ e = 5 \/ e = 6 \/ e = 7 \/ e = 8 \/ e = 9)%Z) by lia.
  clear Hd He. repeat destruct D as [->|D]; try subst d; repeat destruct E as [->|E]; try subst e; vm_compute; congruence.
Qed.
Lemma decimal_inj n k t : decimal n t -> decimal k t -> n = k.
Proof.
  intros (a & Ha & Ea) (b & Hb & Eb). rewrite Ea in Eb. clear Ea.
  assert (E : a = b).
  { destruct Ha as (Fa & _), Hb as (Fb & _). clear n k. revert b Fb Eb. induction Fa as [|d a Hd Fa IH]; intros [|e b] Fb E; try discriminate; auto.
    cbn in E. injection E as E1 E2. inversion Fb; subst. f_equal; auto using digit_text_inj. }
  subst b. exact (digits_differ _ _ _ Ha Hb).
Qed.
Lemma int_text_inj z z' : int_text z = int_text z' -> z = z'.
Proof.
  intros H. pose proof (integer_shown z) as H1. pose proof (integer_shown z') as H2. rewrite <- H in H2. unfold integer_text in *.
  destruct (Z.ltb_spec z 0) as [Hz|Hz], (Z.ltb_spec z' 0) as [Hz'|Hz'].
  - destruct H1 as (t & H1 & E1), H2 as (u & H2 & E2). rewrite E1 in E2. injection E2 as <-. pose proof (decimal_inj _ _ _ H1 H2). lia.
  - destruct H1 as (t & H1 & E1). rewrite E1 in H2. apply decimal_chars in H2. inversion H2; subst. lia.
  - destruct H2 as (t & H2 & E1). rewrite E1 in H1. apply decimal_chars in H1. inversion H1; subst. lia.
  - exact (decimal_inj _ _ _ H1 H2).
Qed.
Lemma n_text_inj n k : n_text n = n_text k -> n = k.
Proof. intros H. apply int_text_inj in H. lia. Qed.
Lemma int_not_in c z : (c < 45 \/ 57 < c)%N -> ~ In c (int_text z).
Proof. intros H HI. pose proof (int_text_chars z) as HC. rewrite Forall_forall in HC. apply HC in HI. lia. Qed.

Lemma same_tail (a b x y : rstring) : a ++ x = b ++ y -> length x = length y -> a = b.
Proof.
  intros H HL. assert (E : length a = length b) by (apply (f_equal (@length N)) in H; rewrite !app_length in H; lia).
  apply (f_equal (firstn (length a))) in H. rewrite firstn_app, Nat.sub_diag, firstn_all, firstn_O, app_nil_r in H.
  rewrite E, firstn_app, Nat.sub_diag, firstn_all, firstn_O, app_nil_r in H. exact H.
Qed.
Section Texts.
Context (escape : N -> rstring) (duration_text : N -> rstring) (syntax_text : nat -> rstring).
Notation error_text := (error_text escape duration_text syntax_text).
Notation debug_text := (debug_text escape).

Lemma kind_seen e : guess beginnings (error_text e) = kind e.
Proof. destruct e; reflexivity. Qed.

Lemma debug_inj a : forall b, plain a -> plain b -> flat_map (debug_char escape) a = flat_map (debug_char escape) b -> a = b.
Proof.
  assert (G : forall c, (32 <= c <= 126)%N -> debug_char escape c = if (c =? 34)%N then [92; 34]%N else if (c =? 92)%N then [92; 92]%N else [c]).
  { intros c Hc. unfold debug_char. destruct (c =? 34)%N; [reflexivity|]. destruct (c =? 92)%N; [reflexivity|].
    destruct (N.leb_spec 32 c), (N.leb_spec c 126); try lia. reflexivity. }
  induction a as [|c a IH]; intros [|d b] Ha Hb H; [reflexivity| | |].
  - exfalso. inversion Hb; subst. cbn [flat_map] in H. rewrite G in H by assumption. destruct (d =? 34)%N; [discriminate|]. destruct (d =? 92)%N; discriminate.
  - exfalso. inversion Ha; subst. cbn [flat_map] in H. rewrite G in H by assumption. destruct (c =? 34)%N; [discriminate|]. destruct (c =? 92)%N; discriminate.
  - pose proof (Forall_inv Ha) as H1. pose proof (Forall_inv Hb) as H3. apply Forall_inv_tail in Ha, Hb. cbn [flat_map] in H. rewrite (G c H1), (G d H3) in H.
    destruct (N.eqb_spec c 34), (N.eqb_spec d 34), (N.eqb_spec c 92), (N.eqb_spec d 92); subst; cbn [app] in H; injection H; intros; subst; try congruence; f_equal; auto.
Qed.
Lemma debug_text_inj a b x y : plain a -> plain b -> debug_text a ++ x = debug_text b ++ y -> length x = length y -> a = b.
Proof.
  intros Ha Hb H HL. apply same_tail in H; [|exact HL]. unfold Report.debug_text in H. cbn [app] in H. injection H as H.
  apply app_inj_tail in H as [H _]. exact (debug_inj a b Ha Hb H).
Qed.

(** [ticked] texts are read back. *)
Lemma ticked_app a b x y : tickless a -> tickless b -> ticked a ++ x = ticked b ++ y -> a = b /\ x = y.
Proof.
  intros Ha Hb H. unfold ticked in H. cbn [app] in H. injection H as H. rewrite <- !app_assoc in H. cbn [app] in H.
  apply cut_first in H; auto using tick_in.
Qed.
Lemma ticked_end a b x y : tickless a -> tickless b -> x ++ ticked a = y ++ ticked b -> a = b /\ x = y.
Proof.
  intros Ha Hb H. unfold ticked in H. cbn [app] in H.
  assert (H' : (x ++ 96%N :: a) ++ [96%N] = (y ++ 96%N :: b) ++ [96%N]) by (rewrite <- !app_assoc; exact H).
  apply app_inj_tail in H' as [H' _]. apply cut_last in H'; auto using tick_in.
Qed.
Lemma n_tickless n : tickless (n_text n).
Proof. apply Forall_forall. intros c Hc ->. revert Hc. apply int_not_in. lia. Qed.

Ltac heads H := repeat (first [apply app_inv_head in H | rewrite <- !app_assoc in H]).
Theorem texts_differ e e' : settled e -> settled e' -> error_text e = error_text e' -> e = e'.
Proof.
  intros S S' H. assert (K : kind e = kind e') by (rewrite <- !kind_seen, H; reflexivity).
  destruct e, e'; cbn [kind] in K; try discriminate K; clear K; cbn [settled] in S, S'; try reflexivity; try contradiction;
    cbn [Report.error_text] in H.
  - apply app_inv_head in H. f_equal. exact (debug_text_inj _ _ _ _ S S' H eq_refl).
  - exfalso. apply (f_equal (@rev N)) in H. rewrite !app_assoc, !(rev_app_distr _ (str " is not defined")), !(rev_app_distr _ (str " is already defined")) in H. discriminate H.
  - exfalso. apply (f_equal (@rev N)) in H. rewrite !app_assoc, !(rev_app_distr _ (str " is not defined")), !(rev_app_distr _ (str " is already defined")) in H. discriminate H.
  - apply app_inv_head in H. f_equal. exact (debug_text_inj _ _ _ _ S S' H eq_refl).
  - apply app_inv_head in H. f_equal. exact (debug_text_inj _ _ _ _ S S' H eq_refl).
  - apply app_inv_head in H. f_equal. exact (debug_text_inj _ _ _ _ S S' H eq_refl).
  - exfalso. apply (f_equal (@rev N)) in H. rewrite !app_assoc, !(rev_app_distr _ (str " is not in the global scope")), !(rev_app_distr _ (str " is aldready defined")) in H. discriminate H.
  - exfalso. apply (f_equal (@rev N)) in H. rewrite !app_assoc, !(rev_app_distr _ (str " is not in the global scope")), !(rev_app_distr _ (str " is not defined")) in H. discriminate H.
  - exfalso. apply (f_equal (@rev N)) in H. rewrite !app_assoc, !(rev_app_distr _ (str " is not in the global scope")), !(rev_app_distr _ (str " is aldready defined")) in H. discriminate H.
  - apply app_inv_head in H. f_equal. exact (debug_text_inj _ _ _ _ S S' H eq_refl).
  - exfalso. apply (f_equal (@rev N)) in H. rewrite !app_assoc, !(rev_app_distr _ (str " is not defined")), !(rev_app_distr _ (str " is aldready defined")) in H. discriminate H.
  - exfalso. apply (f_equal (@rev N)) in H. rewrite !app_assoc, !(rev_app_distr _ (str " is not in the global scope")), !(rev_app_distr _ (str " is not defined")) in H. discriminate H.
  - exfalso. apply (f_equal (@rev N)) in H. rewrite !app_assoc, !(rev_app_distr _ (str " is not defined")), !(rev_app_distr _ (str " is aldready defined")) in H. discriminate H.
  - apply app_inv_head in H. f_equal. exact (debug_text_inj _ _ _ _ S S' H eq_refl).
  - apply app_inv_head in H. apply ticked_app in H as [-> H]; try apply S; try apply S'. apply app_inv_head in H.
    apply (ticked_end _ _ [] []) in H as [-> _]; try apply S; try apply S'. reflexivity.
  - apply app_inv_head in H. apply ticked_app in H as [-> H]; try apply S; try apply S'. apply app_inv_head in H.
    apply (ticked_end _ _ [] []) in H as [-> _]; try apply S; try apply S'. reflexivity.
  - apply app_inv_head in H. apply ticked_app in H as [-> H]; try apply S; try apply S'. apply app_inv_head in H.
    apply (ticked_end _ _ [] []) in H as [-> _]; try apply S; try apply S'. reflexivity.
  - apply app_inv_head in H. rewrite !app_assoc in H. apply ticked_end in H as [-> H]; try assumption. apply app_inv_tail in H. subst. reflexivity.
  - apply app_inv_head in H. rewrite !app_assoc in H. apply ticked_end in H as [G H]; try apply n_tickless. apply n_text_inj in G as ->.
    apply app_inv_tail in H. apply ticked_end in H as [G H]; try apply n_tickless. apply n_text_inj in G as ->. apply app_inv_tail in H. subst. reflexivity.
  - apply app_inv_head in H. apply ticked_app in H as [-> H]; try assumption. reflexivity.
  - apply app_inv_head in H. apply ticked_app in H as [-> H]; try apply S; try apply S'. apply app_inv_head in H.
    apply ticked_app in H as [-> H]; try apply S; try apply S'. apply app_inv_head in H.
    apply (ticked_end _ _ [] []) in H as [-> _]; try apply S; try apply S'. reflexivity.
  - apply app_inv_head in H. apply (ticked_end _ _ [] []) in H as [-> _]; try assumption. reflexivity.
  - apply app_inv_head in H. apply (cut_first 32%N) in H as [G H]; [|apply int_not_in; lia|apply int_not_in; lia]. apply n_text_inj in G as ->.
    apply (app_inv_head (str "item value into ")) in H. apply app_inv_tail in H. apply n_text_inj in H as ->. reflexivity.
  - apply app_inv_head in H. apply ticked_app in H as [-> H]; try apply S; try apply S'. apply app_inv_head in H.
    apply (ticked_end _ _ [] []) in H as [-> _]; try apply S; try apply S'. reflexivity.
  - apply app_inv_head in H. apply (ticked_end _ _ [] []) in H as [-> _]; try assumption. reflexivity.
  - apply app_inv_head in H. apply (ticked_end _ _ [] []) in H as [-> _]; try assumption. reflexivity.
  - apply app_inv_head in H. subst. reflexivity.
  - apply app_inv_head in H. f_equal. exact (debug_text_inj _ _ [] [] S S' (f_equal (fun t => t ++ []) H) eq_refl).
  - apply app_inv_head in H. f_equal. exact (debug_text_inj _ _ [] [] S S' (f_equal (fun t => t ++ []) H) eq_refl).
  - apply app_inv_head in H. f_equal. exact (debug_text_inj _ _ [] [] S S' (f_equal (fun t => t ++ []) H) eq_refl).
  - apply app_inv_head in H. apply ticked_app in H as [G H].
    + apply int_text_inj in G as ->. reflexivity.
    + apply Forall_forall. intros c Hc ->. revert Hc. apply int_not_in. lia.
    + apply Forall_forall. intros c Hc ->. revert Hc. apply int_not_in. lia.
Qed.
End Texts.
