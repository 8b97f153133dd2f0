(** Documented defaults (C99). *)
From Verif Require Import Base Float NumText Vecc Value Ast Arith VmOps Args Builtins Compiler Vm Std Console Docs SpecDocs ProofDocs ProofDocs2.

Definition with_default (d : builtin_doc) : bool := existsb (fun a => match ad_default a with Some _ => true | None => false end) (bd_args d).
Definition defaults : list builtin_doc := [
  doc (str "truncate") [need (str "s") (str "str"); need (str "len") (str "int"); may (str "ellipsis") (str "str") (quoted (str "..."))] [str "str"];
  doc (str "split") [need (str "s") (str "str"); may (str "sep") (str "str") (quoted (str " "))] [str "list"];
  doc (str "join") [need (str "s") (str "list"); may (str "sep") (str "str") (quoted [])] [str "str"]].
Lemma defaults_are : filter with_default all_docs = defaults.
Proof. vm_compute. reflexivity. Qed.
Lemma quoted_inj s t : quoted s = quoted t -> s = t.
Proof. unfold quoted. intros H. apply app_inv_head in H. now apply app_inv_tail in H. Qed.
Lemma some_quoted s t : Some (quoted s) = Some (quoted t) -> s = t.
Proof. intros H. apply quoted_inj. exact (f_equal (fun x => match x with Some y => y | None => [] end) H). Qed.
Lemma last_default x ty q t : ad_default (may x ty q) = Some t -> t = q.
Proof. cbn [ad_default may]. congruence. Qed.
Lemma app_one {A} (x y : A) : [x; y] = [x] ++ [y].
Proof. reflexivity. Qed.
Lemma app_two {A} (x y z : A) : [x; y; z] = [x; y] ++ [z].
Proof. reflexivity. Qed.

Section Library.
Context (m : mode) (orc : oracle) (feq : mfn -> mfn -> res bool) (fhash : mfn -> res (list hitem)).
Local Notation lib := (stdio m orc feq fhash).
Lemma std_name name b : In (name, b) lib -> In name [str "truncate"; str "split"; str "join"] ->
  b = BFn (fun d args o => (d, std_call m orc mfi feq (o_array_max o) name args)).
Proof.
  intros H Hn. apply in_app_or in H. destruct H as [H|H]; apply in_map_iff in H; destruct H as (p & E & H); injection E as E1 <-.
  - now rewrite E1.
  - exfalso. assert (K : In (fst p) (map fst (console_list orc mfi fhash))) by (apply in_map, H). rewrite E1 in K.
    assert (X : forallb (fun x => negb (existsb (seqb x) (map fst (console_list orc mfi fhash)))) [str "truncate"; str "split"; str "join"] = true) by (vm_compute; reflexivity).
    rewrite forallb_forall in X. specialize (X name Hn). apply negb_true_iff in X. rewrite <- not_true_iff_false in X. apply X.
    apply existsb_exists. exists name. split; auto. now apply seqb_eq.
Qed.
Lemma call_truncate amax args : std_call m orc mfi feq amax (str "truncate") args = call mfi _ (b_truncate orc) args.
Proof. reflexivity. Qed.
Lemma call_split amax args : std_call m orc mfi feq amax (str "split") args = call mfi _ (b_split amax) args.
Proof. reflexivity. Qed.
Lemma call_join amax args : std_call m orc mfi feq amax (str "join") args = call mfi _ (b_join orc mfi) args.
Proof. reflexivity. Qed.
Theorem defaults_documented d req a s f w args opts : In d all_docs -> In (bd_name d, BFn f) lib ->
  bd_args d = req ++ [a] -> ad_default a = Some (quoted s) -> length args = length req ->
  f w args opts = f w (args ++ [VString s]) opts.
Proof.
  intros Hd Hf Ha Hs Hl. assert (K : In d defaults).
  { rewrite <- defaults_are. apply filter_In. split; auto. unfold with_default. rewrite Ha, existsb_app. cbn [existsb]. rewrite Hs. apply orb_true_r. }
  assert (Hn : In (bd_name d) [str "truncate"; str "split"; str "join"]) by (destruct K as [<-|[<-|[<-|[]]]]; cbn; tauto).
  apply std_name in Hf; auto. injection Hf as ->. f_equal.
  destruct K as [<-|[<-|[<-|[]]]]; cbn [bd_args doc bd_name] in *.
  - destruct req as [|r1 [|r2 [|r3 req]]]; try discriminate Ha; [|destruct req; discriminate Ha].
    injection Ha as <- <- <-. assert (X := some_quoted (str "...") _ Hs). subst s.
    destruct args as [|x [|y [|z args]]]; try discriminate Hl. cbn [app]. rewrite !call_truncate. destruct x; try reflexivity; destruct y; reflexivity.
  - destruct req as [|r1 [|r2 req]]; try discriminate Ha; [|destruct req; discriminate Ha].
    injection Ha as <- <-. assert (X := some_quoted (str " ") _ Hs). subst s.
    destruct args as [|x [|y args]]; try discriminate Hl. cbn [app]. rewrite !call_split. destruct x; try reflexivity.
  - destruct req as [|r1 [|r2 req]]; try discriminate Ha; [|destruct req; discriminate Ha].
    injection Ha as <- <-. assert (X := some_quoted [] _ Hs). subst s.
    destruct args as [|x [|y args]]; try discriminate Hl. cbn [app]. rewrite !call_join. destruct x; try reflexivity.
Qed.
End Library.

(** docs of a group are found by name *)
Lemma flat_nodup {A B C} (f : A -> list B) (g : B -> C) l x : In x l -> NoDup (map g (flat_map f l)) -> NoDup (map g (f x)).
Proof.
  induction l as [|y l IH]; cbn [flat_map In]; [easy|]. rewrite map_app. intros [<-|H] N.
  - revert N. generalize (map g (f y)) as p, (map g (flat_map f l)) as q. clear. induction p as [|a p IH]; intros q N; [constructor|].
    inversion N; subst. constructor; [rewrite in_app_iff in H1; tauto|eauto].
  - apply IH; auto. revert N. generalize (map g (f y)) as p. induction p as [|a p IHp]; auto. intros N. inversion N; subst. auto.
Qed.
Lemma found_by_name g name d : In g groups -> (get_doc g name = Some d <-> In d (gd_builtins g) /\ bd_name d = name).
Proof.
  intros Hg. pose proof (flat_nodup gd_builtins bd_name groups g Hg docs_apart) as N. unfold get_doc. split.
  - intros H. apply find_some in H. destruct H as [H1 H2]. apply seqb_eq in H2. auto.
  - intros [H1 H2]. revert N H1. generalize (gd_builtins g) as l. clear Hg. induction l as [|e l IH]; [easy|]; intros N [H|H]; cbn [find].
    + subst e. rewrite (proj2 (seqb_eq _ _) H2). reflexivity.
    + cbn [map] in N. inversion N as [|? ? N1 N2]; subst. destruct (seqb (bd_name e) (bd_name d)) eqn:E; [|auto].
      apply seqb_eq in E. exfalso. apply N1. rewrite E. now apply in_map.
Qed.

Lemma defaults_last d a t : In d all_docs -> In a (bd_args d) -> ad_default a = Some t ->
  exists req s, bd_args d = req ++ [a] /\ t = quoted s.
Proof.
  intros Hd Ha Ht. assert (K : In d defaults).
  { rewrite <- defaults_are. apply filter_In. split; auto. unfold with_default. apply existsb_exists. exists a. now rewrite Ht. }
  destruct K as [<-|[<-|[<-|[]]]]; cbn [bd_args doc In] in Ha;
    repeat (destruct Ha as [<-|Ha]; [first [discriminate Ht|apply last_default in Ht; subst t; do 2 eexists; split; [|reflexivity]; first [exact (app_two _ _ _)|exact (app_one _ _)]]|]); destruct Ha.
Qed.
