(** Calls of builtins are as documented: the whole library (C99). *)
From Verif Require Import Base Float NumText Vecc Value Ast Arith VmOps Args Builtins Compiler Vm Std Console Docs SpecDocs ProofDocs.
From Verif Require ProofBuiltins4.

Definition documented_as (name : rstring) : option builtin_doc := find (fun d => seqb (bd_name d) name) all_docs.

Section Lib.
Context (m : mode) (o : oracle) (feq : mfn -> mfn -> res bool) (amax : N) (fhash : mfn -> res (list hitem)).

Definition right (p : @bfun mfn) : Prop := exists d, documented_as (fst p) = Some d /\ forall args,
  (exists e, snd p args = Err e) \/ (fitting (bd_args d) args /\ forall v, snd p args = Ok v -> returned (bd_returns d) v).
Lemma right_reg name ps (f : sig ps) d : documented_as name = Some d -> documents ps (bd_args d) -> tail_optional ps = true ->
  outs (returned (bd_returns d)) ps f -> right (reg mfi name ps f).
Proof. intros H1 H2 H3 H4. exists d. split; [exact H1|]. intros args. apply call_documented; auto. Qed.
Definition wright (p : @wfun mfn) : Prop := exists d, documented_as (fst p) = Some d /\ forall args w,
  (exists e, snd p args w = (w, Err e)) \/ (fitting (bd_args d) args /\ forall v, snd (snd p args w) = Ok v -> returned (bd_returns d) v).
Lemma right_wreg name ps (f : wsig ps) d : documented_as name = Some d -> documents ps (bd_args d) -> tail_optional ps = true ->
  wouts (returned (bd_returns d)) ps f -> wright (wreg mfi name ps f).
Proof. intros H1 H2 H3 H4. exists d. split; [exact H1|]. intros args w. apply wcall_documented; auto. Qed.

Lemma made l v : make_value_array l amax = Ok v -> exists size mx, v = VArray l size mx :> value.
Proof.
  unfold make_value_array. destruct (vecc_try_new_from _ _ _) as [x|e|] eqn:E; try discriminate. intros [= <-].
  unfold vecc_try_new_from in E. destruct (_ <? _)%N; [discriminate|]. injection E as <-. eexists _, _; reflexivity.
Qed.

Lemma hue_colour c x mm h a : exists r g b a', hue_channels c x mm h a = VColor r g b a' :> value.
Proof. unfold hue_channels. destruct (if fltb h f1 then _ else _) as [[r g] b]. eexists _, _, _, _. reflexivity. Qed.
Ltac one := intros; repeat match goal with x : (_ * _)%type |- _ => destruct x end.
Ltac fin := match goal with
  | H : Ok _ = Ok _ |- _ => injection H as <-
  | H : Err _ = Ok _ |- _ => discriminate H
  | H : Panic = Ok _ |- _ => discriminate H
  | H : err_msg _ = Ok _ |- _ => discriminate H
  | H : make_value_array _ _ = Ok _ |- _ => apply made in H; destruct H as (? & ? & ->)
  | H : rbind ?x _ = Ok _ |- _ => destruct x eqn:?; cbn [rbind] in H
  | H : (match ?x with _ => _ end) = Ok _ |- _ => destruct x eqn:?
  | H : snd (match ?x with _ => _ end) = Ok _ |- _ => destruct x eqn:?
  end.
Ltac ty := try match goal with |- context [hue_channels ?c ?x ?mm ?h ?a] => destruct (hue_colour c x mm h a) as (? & ? & ? & ? & ->) end; cbn [returned]; try reflexivity; apply Exists_cons_hd; first [constructor; fail | constructor; unfold number; eauto; fail].
Ltac body := cbv delta [b_str b_radix b_char b_int_from_radix b_int b_float b_bool b_color b_len b_gettype b_truncate
   b_capitalize b_title b_uppercase b_lowercase b_split b_join b_replace b_trim b_trim_start b_trim_end
   b_starts_with b_ends_with b_contains b_chars b_assert b_assert_eq b_assert_ne b_unreachable b_panic b_todo b_log b_min b_max
   b_rounding b_fix b_clamp b_interp b_abs b_math1 b_atan2 b_sqrt b_rgba b_rgb b_r b_g b_b b_a b_luma b_hue
   b_saturation b_cdifference b_invert b_alpha b_mix b_lighten b_darken b_saturate b_complement
   b_contrast_color b_rainbow_colors b_hsla b_hsl b_hsva b_hsv b_get b_set b_slice
   hsla_to_rgba hsva_to_rgba] beta zeta iota.

Lemma std_right : Forall right (std_list m o mfi feq amax).
Proof.
  unfold std_list, core_list, math_list, colors_list, strings_list, testing_list. cbn [app].
  repeat (constructor; [eapply right_reg; [vm_compute; reflexivity | cbn; repeat split; reflexivity | reflexivity |
    cbn [outs bd_returns pty]; one; match goal with H : _ = Ok ?v |- _ => revert v H; body; intros end; repeat fin; try (ty; fail)] |]).
  all: try (constructor; fail).
Qed.

Ltac wbody := cbv delta [b_println b_print b_debug b_input b_readfile b_now b_date b_random b_randbool b_randint b_randfloat b_randchoice
  b_random_color b_random_pastel_color b_random_rainbow_color b_hash draw_below draw_float] beta zeta iota.
Lemma console_right : Forall wright (console_list o mfi fhash).
Proof.
  unfold console_list, io_list, time_list, random_list. cbn [app].
  repeat (constructor; [eapply right_wreg; [vm_compute; reflexivity | cbn; repeat split; reflexivity | reflexivity |
    cbn [wouts bd_returns pty]; one; match goal with H : _ = Ok ?v |- _ => revert v H; wbody; intros end;
    repeat (cbn [snd fst] in *; fin)] |]).
  all: try (ty; fail).
  - match goal with E : nth_error rainbow _ = Some _ |- _ => apply nth_error_In in E; cbn [In rainbow] in E end.
    repeat match goal with E : _ \/ _ |- _ => destruct E as [<-|E]; [ty|] end. contradiction.
  - constructor.
Qed.
End Lib.

Section Library.
Context (m : mode) (orc : oracle) (feq : mfn -> mfn -> res bool) (fhash : mfn -> res (list hitem)).
Local Notation lib := (stdio m orc feq fhash).

Lemma docs_apart : NoDup (map bd_name all_docs).
Proof.
  assert (H : (fix go (l : list rstring) := match l with [] => true | x :: t => negb (existsb (seqb x) t) && go t end) (map bd_name all_docs) = true)
    by (vm_compute; reflexivity).
  revert H. generalize (map bd_name all_docs). induction l as [|x l IH]; intros H; constructor.
  - apply andb_prop in H. destruct H as [H _]. intros K. apply negb_true_iff in H. rewrite <- not_true_iff_false in H.
    apply H, existsb_exists. exists x. split; auto. now apply seqb_eq.
  - apply IH. now apply andb_prop in H.
Qed.
Lemma found_doc d : In d all_docs -> documented_as (bd_name d) = Some d.
Proof.
  unfold documented_as. pose proof docs_apart as N. revert N. generalize all_docs. induction l as [|x l IH]; intros N K; [destruct K|].
  cbn [find map] in *. inversion N; subst. destruct K as [->|K].
  - now rewrite (proj2 (seqb_eq _ _) eq_refl).
  - destruct (seqb _ _) eqn:E; [|auto]. apply seqb_eq in E. exfalso. apply H1. rewrite E. apply in_map, K.
Qed.
Lemma found_is name d : documented_as name = Some d -> In d all_docs /\ bd_name d = name.
Proof. intros H. apply find_some in H. destruct H as [H1 H2]. apply seqb_eq in H2. auto. Qed.
Lemma lib_names : map fst lib = map fst (std_list m orc mfi feq 0) ++ map fst (console_list orc mfi fhash).
Proof. unfold stdio, std, console. rewrite map_app, !map_map. reflexivity. Qed.

Theorem all_registered name : (exists b, In (name, b) lib) <-> exists d, In d all_docs /\ bd_name d = name.
Proof.
  split.
  - intros (b & H). apply in_app_or in H. destruct H as [H|H]; apply in_map_iff in H; destruct H as (p & E & H); injection E as <- _.
    + pose proof (std_right m orc feq 0) as R. rewrite Forall_forall in R. destruct (R _ H) as (d & Hd & _). exists d. now apply found_is.
    + pose proof (console_right orc fhash) as R. rewrite Forall_forall in R. destruct (R _ H) as (d & Hd & _). exists d. now apply found_is.
  - intros (d & H & <-). assert (K : In (bd_name d) (map fst lib)).
    { rewrite lib_names. apply in_map with (f := bd_name) in H.
      enough (K : incl (map bd_name all_docs) (map fst (std_list m orc mfi feq 0) ++ map fst (console_list orc mfi fhash))) by (apply K, H).
      assert (E : forall x, In x (map bd_name all_docs) -> existsb (seqb x) (map fst (std_list m orc mfi feq 0) ++ map fst (console_list orc mfi fhash)) = true).
      { apply forallb_forall. vm_compute. reflexivity. }
      intros x Hx. specialize (E x Hx). apply existsb_exists in E. destruct E as (y & Hy & E). apply seqb_eq in E. now subst. }
    apply in_map_iff in K. destruct K as ([n b] & E & K). cbn in E. subst. eauto.
Qed.
Lemma std_call_in name amax args d : documented_as name = Some d ->
  In name (map fst (std_list m orc mfi feq 0)) ->
  (exists e, std_call m orc mfi feq amax name args = Err e) \/
  (fitting (bd_args d) args /\ forall v, std_call m orc mfi feq amax name args = Ok v -> returned (bd_returns d) v).
Proof.
  intros Hd Hn. unfold std_call. destruct (alookup seqb name _) as [f|] eqn:E; [|left; eauto].
  apply ProofBuiltins4.alookup_in in E. pose proof (std_right m orc feq amax) as R. rewrite Forall_forall in R.
  destruct (R _ E) as (d' & Hd' & K). cbn [fst snd] in *. rewrite Hd in Hd'. injection Hd' as <-. apply K.
Qed.
Theorem lib_documented d f w args opts : In d all_docs -> In (bd_name d, BFn f) lib ->
  let (w', r) := f w args opts in
  (~ fitting (bd_args d) args -> w' = w /\ exists e, r = Err e) /\
  (forall v, r = Ok v -> fitting (bd_args d) args /\ returned (bd_returns d) v).
Proof.
  intros Hd H. apply found_doc in Hd. apply in_app_or in H. destruct H as [H|H]; apply in_map_iff in H; destruct H as (p & E & H); injection E as E1 <-.
  - rewrite E1. assert (Hn : In (bd_name d) (map fst (std_list m orc mfi feq 0))) by (rewrite <- E1; apply in_map, H).
    destruct (std_call_in (bd_name d) (o_array_max opts) args d Hd Hn) as [(e & K)|(K1 & K2)].
    + rewrite K. split; [eauto|discriminate].
    + split; [intros X; contradiction|auto].
  - rewrite E1. unfold console_call. destruct (alookup seqb (bd_name d) _) as [f|] eqn:E; [|split; [eauto|discriminate]].
    apply ProofBuiltins4.alookup_in in E. pose proof (console_right orc fhash) as R. rewrite Forall_forall in R.
    destruct (R _ E) as (d' & Hd' & K). cbn [fst snd] in *. rewrite Hd in Hd'. injection Hd' as <-.
    destruct (K args w) as [(e & K1)|(K1 & K2)].
    + rewrite K1. split; [eauto|discriminate].
    + destruct (f args w) as [w' r]. cbn [snd] in K2. split; [intros X; contradiction|auto].
Qed.
End Library.
