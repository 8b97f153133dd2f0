(** Cases of C99. *)
From Verif Require Import Base Float NumText Vecc Value Ast Arith VmOps Args Builtins Compiler Vm Std Console Docs SpecDocs ProofArithEx ProofDocs ProofDocs2 ProofDocs3.

Definition cut : builtin_doc :=
  doc (str "truncate") [need (str "s") (str "str"); need (str "len") (str "int"); may (str "ellipsis") (str "str") (quoted (str "..."))] [str "str"].
Definition cut_text : rstring := str "hello there".
Lemma cut_fits : fitting (bd_args cut) [VString cut_text; VInt 5] /\ fitting (bd_args cut) [VString cut_text; VInt 5; VString (str "!")] /\
  ~ fitting (bd_args cut) [VString cut_text] /\ ~ fitting (bd_args cut) [VInt 5; VString cut_text] /\
  ~ fitting (bd_args cut) [VString cut_text; VInt 5; VString (str "!"); VNone].
Proof.
  assert (Hi : allowed (str "int") (VInt 5)) by (apply al_number; [now left|left; now exists 5%Z]).
  assert (Ha : forall v, allowed (str "str") v -> exists s, v = VString s).
  { intros v H. inversion H as [| ty u I N | | | | |]; subst; eauto. exfalso. cbn in I. repeat (destruct I as [I|I]; [discriminate I|]). destruct I. }
  repeat split.
  - apply ft_arg; [apply al_str|]. apply ft_arg; [exact Hi|]. apply ft_left_out. repeat constructor.
  - apply ft_arg; [apply al_str|]. apply ft_arg; [exact Hi|]. apply ft_arg; [apply al_str|]. apply ft_left_out. constructor.
  - intros H. inversion H as [| | d l v args H1 H2]; subst. inversion H2 as [? F| |]; subst. inversion F; discriminate.
  - intros H. inversion H as [| | d l v args H1 H2]; subst. destruct (Ha _ H1) as [s E]. discriminate E.
  - intros H. inversion H as [| | d l v args H1 H2]; subst. inversion H2 as [| | d2 l2 v2 args2 H3 H4]; subst.
    inversion H4 as [|? ? E | d3 l3 v3 args3 H5 H6]; subst; [discriminate E|]. inversion H6.
Qed.
Section Ex.
Context (feq : mfn -> mfn -> res bool) (fhash : mfn -> res (list hitem)) (w : world) (opts : options).
Definition cut_fn : world -> list value -> options -> world * res value :=
  fun d args o => (d, std_call Debug no_oracle mfi feq (o_array_max o) (str "truncate") args).
Lemma cut_in : In cut all_docs /\ In (bd_name cut, BFn cut_fn) (stdio Debug no_oracle feq fhash).
Proof.
  split.
  - assert (X : In cut defaults) by (now left). rewrite <- defaults_are in X. apply filter_In in X. tauto.
  - destruct (proj2 (all_registered Debug no_oracle feq fhash (str "truncate"))) as [b H].
    + exists cut. split; [|reflexivity]. assert (X : In cut defaults) by (now left). rewrite <- defaults_are in X. apply filter_In in X. tauto.
    + cbn [bd_name cut doc]. unfold cut_fn. rewrite <- (std_name Debug no_oracle feq fhash _ _ H) by now left. exact H.
Qed.
Lemma cut_calls : cut_fn w [VString cut_text; VInt 8] opts = (w, Ok (VString (str "hello..."))) /\
  cut_fn w [VString cut_text; VInt 8; VString (str "!")] opts = (w, Ok (VString (str "hello t!"))) /\
  cut_fn w [VString cut_text] opts = (w, snd (cut_fn w [VString cut_text] opts)).
Proof. repeat split; vm_compute; reflexivity. Qed.
End Ex.
