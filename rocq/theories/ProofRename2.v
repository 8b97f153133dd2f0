(** Runs of renamed programs (C103): the operators. *)
From Verif Require Import Base RleVec Pool Vecc Float NumText Bytecode Chunk Value Ast Arith VmOps Compiler Vm SpecNames SpecRel SpecRename ProofRel ProofStdRel ProofRename.

(** Errors that carry no names of the program. *)
Definition nameless (e : error) : Prop :=
  match e with EExternalRedefined _ | EExternalNotGlobal _ | ENameUndefined _ | EUndefinedBuiltin _ | EMismatchedArity _ _ _ => False | _ => True end.
Lemma nameless_same r e : nameless e -> renamed_error r e = e.
Proof. destruct e; cbn; auto; contradiction. Qed.
Definition nl {A} (x : res A) : Prop := forall e, x = Err e -> nameless e.
Lemma nl_ok {A} (a : A) : nl (Ok a). Proof. discriminate. Qed.
Lemma nl_panic {A} : nl (A := A) Panic. Proof. discriminate. Qed.
Lemma nl_err {A} e : nameless e -> nl (A := A) (Err e). Proof. intros H e' [= <-]. exact H. Qed.
Lemma nl_bind {A B} (x : res A) (k : A -> res B) : nl x -> (forall a, nl (k a)) -> nl (rbind x k).
Proof. intros Hx Hk e. destruct x as [a|e'|]; cbn; [apply Hk| |discriminate]. intros [= <-]. now apply Hx. Qed.

Ltac nlgo := repeat first
  [ apply nl_ok | apply nl_panic | (apply nl_err; exact Logic.I) | assumption
  | (apply nl_bind; [|intros]) 
  | match goal with
    | |- nl (match ?x with _ => _ end) => destruct x
    | |- nl (if ?x then _ else _) => destruct x
    | |- nl (?f _ _ _ _ _ _ _ _ _) => unfold f
    | |- nl (?f _ _ _ _ _ _ _ _) => unfold f
    | |- nl (?f _ _ _ _ _ _ _) => unfold f
    | |- nl (?f _ _ _ _ _ _) => unfold f
    | |- nl (?f _ _ _ _ _) => unfold f
    | |- nl (?f _ _ _ _) => unfold f
    | |- nl (?f _ _ _) => unfold f
    | |- nl (?f _ _) => unfold f
    | |- nl (?f _) => unfold f
    end; cbv zeta beta ].

Section Ops.
Context {Fn : Type} (m : mode) (o : oracle) (fi : fn_info Fn) (feq : Fn -> Fn -> res bool) (smax amax : N).
Lemma nl_index a b : nl (v_index m fi a b). Proof. nlgo. Qed.
Lemma nl_range a b : nl (v_range fi a b). Proof. nlgo. Qed.
Lemma nl_unpack n v : nl (v_unpack fi n v). Proof. nlgo. Qed.
Lemma nl_iter i v : nl (v_iter m fi i v). Proof. nlgo. Qed.
Lemma nl_truthy v : nl (is_truthy fi v). Proof. nlgo. Qed.
Lemma nl_array l : nl (v_array (Fn := Fn) amax l).
Proof. unfold v_array. apply nl_bind; [|intros; apply nl_ok]. generalize (@vecc_new (gvalue Fn) amax). induction l as [|y l IH]; intros x; cbn [push_all]; [nlgo|]. unfold vecc_push. destruct (_ <? _)%N; [nlgo|apply IH]. Qed.
Lemma nl_unary op f v : unary_fn m fi op = Some f -> nl (f v).
Proof. intros H. destruct op; try discriminate; injection H as <-; nlgo. Qed.
Lemma nl_geqb : (forall x y, nl (feq x y)) -> forall v w, nl (geqb feq v w).
Proof.
  intros HF. fix IH 1. intros v w. destruct v as [| | | | | | | |l s mx| | |], w as [| | | | | | | |l' s' mx'| | |]; cbn [geqb]; try (apply nl_ok).
  - destruct (length l =? length l'); [|apply nl_ok]. revert l'. induction l as [|x l IHl]; intros [|x' l']; try apply nl_ok.
    apply nl_bind; [apply IH|]. intros []; [apply IHl|apply nl_ok].
  - apply nl_bind; [apply IH|]. intros []; [apply IH|apply nl_ok].
  - apply HF.
Qed.
Lemma nl_extend l : forall x : vecc (gvalue Fn), nl (snd (vecc_extend get_size x l)).
Proof. induction l as [|y l IH]; intros x; cbn [vecc_extend]; [apply nl_ok|]. unfold vecc_push. destruct (_ <? _)%N; [now apply nl_err|apply IH]. Qed.
Lemma nl_join v w : nl (v_join m o fi smax amax v w).
Proof.
  destruct v, w; cbn [v_join]; try (nlgo; fail). destruct (_ <? _)%N; [nlgo|].
  match goal with |- nl (match vecc_extend ?g ?x ?l with _ => _ end) => pose proof (nl_extend l x) as H; destruct (vecc_extend g x l) as [y []] end; try nlgo. apply nl_err. now apply H.
Qed.
Lemma nl_binary op f v w : (forall x y, nl (feq x y)) -> binary_fn m o fi feq smax amax op = Some f -> nl (f v w).
Proof. intros HF H. destruct op; try discriminate; injection H as <-; try (unfold v_equal, v_not_equal; apply nl_bind; [apply nl_geqb, HF|intros; apply nl_ok]); try apply nl_join; nlgo. Qed.
End Ops.
