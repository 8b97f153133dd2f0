(** Names of builtins, conditions and the operands of operators (C75-C78). *)
From Verif Require Import Base Vecc Float NumText Value Ast Arith VmOps Args Builtins Compiler Vm Std Console
  SpecArith SpecEval SpecStd SpecConsole SpecLib.

(** ** Names *)
Lemma known_list {D} (l : list (rstring * sbuiltin (D := D))) : forall b n,
  fold_left with_builtin l b n <> None <-> In n (map fst l) \/ b n <> None.
Proof.
  induction l as [|[x f] l IH]; intros b n; cbn [fold_left map fst In]; [tauto|].
  rewrite IH. unfold with_builtin at 1. cbn [fst snd]. destruct (seqb n x) eqn:E.
  - apply seqb_eq in E as ->. split; [auto|]. intros _. right. discriminate.
  - split; [tauto|]. intros [[->|H]|H]; auto. rewrite (proj2 (seqb_eq n n) eq_refl) in E. discriminate.
Qed.
Definition inb (n : rstring) (l : list rstring) : bool := existsb (seqb n) l.
Lemma inb_ok n l : inb n l = true -> In n l.
Proof. intros H. apply existsb_exists in H as (x & Hx & E). apply seqb_eq in E. now subst. Qed.
Lemma names_match m orc : let l := map fst (std_direct (D := world) m orc ++ console_direct orc) in
  forallb (fun n => inb n all_names) l = true /\ forallb (fun n => inb n l) all_names = true.
Proof. split; vm_compute; reflexivity. Qed.
Theorem stdio_names m orc n : stdio_known m orc n <> None <-> In n all_names.
Proof.
  unfold stdio_known. rewrite known_list. destruct (names_match m orc) as [H1 H2]. rewrite forallb_forall in H1, H2.
  split.
  - intros [H|H]; [|now destruct H]. now apply inb_ok, H1.
  - intros H. left. now apply inb_ok, H2.
Qed.

(** ** Conditions *)
Section Ops.
Context {Fn : Type} (m : mode) (o : oracle) (fi : fn_info Fn) (feq : Fn -> Fn -> res bool) (smax amax : N).
Notation val := (gvalue Fn).
Lemma feqb_zero f : feqb f fzero = true <-> f = S754_zero false \/ f = S754_zero true.
Proof.
  destruct f as [[|]|[|]| |[|] p e]; cbn; split; try discriminate; try tauto; intros [H|H]; discriminate.
Qed.
Theorem truthy_is (v : val) :
  match truth v with
  | Some P => exists b, is_truthy fi v = Ok b /\ (b = true <-> P)
  | None => is_truthy fi v = Err (EExpected (str "truthy") (ntype fi v))
  end.
Proof.
  destruct v; cbn [truth is_truthy]; try reflexivity; (eexists; split; [reflexivity|]).
  - split; [discriminate|tauto].
  - reflexivity.
  - rewrite negb_true_iff, Z.eqb_neq. reflexivity.
  - rewrite negb_true_iff. pose proof (feqb_zero f) as K. destruct (feqb f fzero).
    + split; [discriminate|]. intros [H1 H2]. destruct K as [K _]. destruct (K eq_refl); contradiction.
    + split; [|reflexivity]. intros _. split; intros ->; destruct K as [_ K]; discriminate K; auto.
  - rewrite negb_true_iff, <- not_true_iff_false, !andb_true_iff, !N.eqb_eq. tauto.
  - destruct s; split; congruence.
Qed.

(** ** Operators *)
Definition unsupported (r : res val) : Prop := exists a b c, r = Err (EUnsupportedBinary a b c).
Lemma zero_is (v : val) : is_zero v = true <-> zero_number v.
Proof.
  unfold zero_number. destruct v; cbn [is_zero]; try (split; [discriminate|intros [?|[?|?]]; discriminate]).
  - rewrite Z.eqb_eq. split; [intros ->; auto|intros [[= ->]|[?|?]]; auto; discriminate].
  - rewrite feqb_zero. split; [intros [->| ->]; auto|intros [?|[[= ->]|[= ->]]]; auto; discriminate].
Qed.
Theorem refused_operands op f (a b : val) : binary_fn m o fi feq smax amax op = Some f ->
  defined_for op (type_of a) (type_of b) = false ->
  f a b = if divides op && is_zero b then Err EZeroDivision
          else Err (EUnsupportedBinary (sign op) (ntype fi a) (ntype fi b)).
Proof.
  destruct op; intros [= <-]; destruct a, b; cbn [type_of defined_for orb]; try discriminate; intros _;
    cbn [divides andb]; try reflexivity;
    (unfold v_divide, v_modulo; match goal with |- context[is_zero ?x] => destruct (is_zero x) end; reflexivity).
Qed.
Hypothesis Hfeq : forall f g e, feq f g <> Err e.
Lemma geqb_no_err (a : val) : forall b e, geqb feq a b <> Err e.
Proof using Hfeq.
  induction a using gvalue_rect'; intros w e; destruct w; cbn [geqb]; try discriminate.
  - match goal with |- context[length ?x =? length ?y] => destruct (length x =? length y); [|discriminate]; revert y end.
    induction H as [|x l Hx Hl IH]; intros [|y l']; try discriminate.
    specialize (Hx y). destruct (geqb feq x y) as [[|]|e'|]; cbn [rbind]; try discriminate; [apply IH|].
    exfalso. exact (Hx e' eq_refl).
  - pose proof (IHa1 w1) as H1. destruct (geqb feq a1 w1) as [[|]|e'|]; cbn [rbind]; try discriminate; [apply IHa2|].
    exfalso. exact (H1 e' eq_refl).
  - apply Hfeq.
Qed.
Lemma ov64_no_err z e : ov64 m z <> Err e.
Proof using. clear Hfeq. unfold ov64. repeat match goal with |- context[if ?c then _ else _] => destruct c end; try destruct m; discriminate. Qed.
Lemma shift_no_err z e : shift_amount m z <> Err e.
Proof using. clear Hfeq. unfold shift_amount. destruct (_ && _); [discriminate|]. destruct m; discriminate. Qed.
Lemma avg_no_err x y e : u8_avg m x y <> Err e.
Proof using. clear Hfeq. unfold u8_avg. destruct (_ <? _)%N; [|discriminate]. destruct m; discriminate. Qed.
Lemma div_no_err x y e : u8_sat_div x y <> Err e.
Proof using. clear Hfeq. unfold u8_sat_div. destruct (_ =? _)%N; discriminate. Qed.
Lemma extend_err (l : list val) : forall v e, snd (vecc_extend get_size v l) = Err e -> e = EArrayTooLarge.
Proof using.
  induction l as [|x l IH]; intros v e; cbn [vecc_extend]; [discriminate|].
  destruct (_ <? _)%N; [cbn; congruence|apply IH].
Qed.
Ltac calm := unfold unsupported; intros (? & ? & ? & HH); revert HH;
  repeat match goal with
  | |- Ok _ = _ -> _ => discriminate
  | |- Panic = _ -> _ => discriminate
  | |- Err EStringTooLarge = _ -> _ => discriminate
  | |- Err EArrayTooLarge = _ -> _ => discriminate
  | |- Err EZeroDivision = _ -> _ => discriminate
  | |- context[ov64 ?m ?z] => let E := fresh in destruct (ov64 m z) eqn:E; [|exfalso; exact (ov64_no_err _ _ E)|]; cbn [rbind]
  | |- context[shift_amount ?m ?z] => let E := fresh in destruct (shift_amount m z) eqn:E; [|exfalso; exact (shift_no_err _ _ E)|]; cbn [rbind]
  | |- context[u8_avg ?m ?z ?y] => let E := fresh in destruct (u8_avg m z y) eqn:E; [|exfalso; exact (avg_no_err _ _ _ E)|]; cbn [rbind]
  | |- context[u8_sat_div ?z ?y] => let E := fresh in destruct (u8_sat_div z y) eqn:E; [|exfalso; exact (div_no_err _ _ _ E)|]; cbn [rbind]
  | |- context[geqb feq ?z ?y] => let E := fresh in destruct (geqb feq z y) eqn:E; [|exfalso; exact (geqb_no_err _ _ _ E)|]; cbn [rbind]
  | |- context[if ?c then _ else _] => destruct c
  end.
Theorem accepted_operands op f (a b : val) : binary_fn m o fi feq smax amax op = Some f ->
  defined_for op (type_of a) (type_of b) = true ->
  (forall s n, op = OMul -> a = VString s -> b = VInt n -> (0 <= n)%Z) ->
  ~ unsupported (f a b).
Proof using Hfeq.
  destruct op; intros [= <-]; destruct a, b; cbn [type_of defined_for orb]; try discriminate; intros _ Hm;
    unfold v_divide, v_modulo, i64_div, i64_rem, v_gt, v_ge, v_lt, v_le, v_cmp, v_equal, v_not_equal, v_bitand, v_bitor, v_bitxor,
      v_shl, v_shr, v_int2, str_concat;
    cbn [v_add v_subtract v_multiply v_power v_and v_or v_join rbind]; unfold str_concat; try solve [calm].
  - specialize (Hm _ _ eq_refl eq_refl eq_refl). destruct (Z.ltb_spec z 0); [lia|]. destruct m; calm.
  - destruct (_ <? _)%N; [calm|].
    match goal with |- context[vecc_extend ?g ?v ?l] => pose proof (extend_err l v) as K; destruct (vecc_extend g v l) as [v' [u|e|]] end;
      cbn [snd] in K; try solve [calm]. intros (? & ? & ? & [= E]). specialize (K e eq_refl). congruence.
Qed.
Theorem promoted op f (l : Z) (x : f64) : numeric op = true -> binary_fn m o fi feq smax amax op = Some f ->
  f (VInt l) (VFloat x) = f (VFloat (f_of_Z l)) (VFloat x) /\
  (divides op = false -> f (VFloat x) (VInt l) = f (VFloat x) (VFloat (f_of_Z l))).
Proof using. clear Hfeq. destruct op; try discriminate; intros _ [= <-]; split; try discriminate; reflexivity. Qed.
Theorem divided (l : Z) (x : f64) : l <> 0%Z ->
  v_divide fi (VFloat x) (VInt l) = Ok (VFloat (fdiv x (f_of_Z l))) /\
  v_modulo fi (VFloat x) (VInt l) = Ok (VFloat (fmod x (f_of_Z l))).
Proof using.
  clear Hfeq. intros H. unfold v_divide, v_modulo. cbn [is_zero]. destruct (Z.eqb_spec l 0); [contradiction|]. now split.
Qed.
Theorem refused_operand op f (a : val) : unary_fn m fi op = Some f -> defined_for1 op (type_of a) = false ->
  f a = Err (EUnsupportedUnary (sign op) (ntype fi a)).
Proof using. clear Hfeq. destruct op; intros [= <-]; destruct a; cbn; try discriminate; reflexivity. Qed.
End Ops.
