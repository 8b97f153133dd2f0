(** C99: builtins do what their documented signatures say.

    [fitting], [returned], [quoted] and [all_docs] are in SpecDocs.v; the tables are in Docs.v. *)
From Verif Require Import Base Float NumText Vecc Value Ast Arith VmOps Args Builtins Compiler Vm Std Console Docs SpecDocs
  ProofArithEx ProofDocs ProofDocs2 ProofDocs3 ProofDocsEx.

(** The builtins a program can call are the documented ones. *)
Theorem C99_registered : forall m orc feq fhash name,
  (exists b, In (name, b) (stdio m orc feq fhash)) <-> exists d, In d all_docs /\ bd_name d = name.
Proof. exact all_registered. Qed.
Print Assumptions C99_registered.

(** No name is documented twice, and asking a group for a name finds what the group says of it. *)
Theorem C99_lookup : NoDup (map bd_name all_docs) /\
  forall g name d, In g groups -> (get_doc g name = Some d <-> In d (gd_builtins g) /\ bd_name d = name).
Proof. exact (conj docs_apart found_by_name). Qed.
Print Assumptions C99_lookup.

(** Arguments that do not fit the documented parameters are refused before anything is done.  A call
    that succeeds was given fitting arguments and returns a value of a documented type. *)
Theorem C99_documented : forall m orc feq fhash d f w args opts,
  In d all_docs -> In (bd_name d, BFn f) (stdio m orc feq fhash) ->
  let (w', r) := f w args opts in
  (~ fitting (bd_args d) args -> w' = w /\ exists e, r = Err e) /\
  (forall v, r = Ok v -> fitting (bd_args d) args /\ returned (bd_returns d) v).
Proof. exact lib_documented. Qed.
Print Assumptions C99_documented.

(** Leaving the last parameter out is passing its documented default. *)
Theorem C99_defaults : forall m orc feq fhash d req a s f w args opts,
  In d all_docs -> In (bd_name d, BFn f) (stdio m orc feq fhash) ->
  bd_args d = req ++ [a] -> ad_default a = Some (quoted s) -> length args = length req ->
  f w args opts = f w (args ++ [VString s]) opts.
Proof. exact defaults_documented. Qed.
Print Assumptions C99_defaults.

(** Every documented default has that form and belongs to the last parameter. *)
Theorem C99_defaults_all : forall d a t, In d all_docs -> In a (bd_args d) -> ad_default a = Some t ->
  exists req s, bd_args d = req ++ [a] /\ t = quoted s.
Proof. exact defaults_last. Qed.
Print Assumptions C99_defaults_all.

(** [@truncate("hello there", 8)] *)
Example C99_example : forall feq fhash w opts,
  In cut all_docs /\ In (bd_name cut, BFn (cut_fn feq)) (stdio Debug no_oracle feq fhash) /\
  fitting (bd_args cut) [VString cut_text; VInt 5] /\ ~ fitting (bd_args cut) [VString cut_text] /\
  ~ fitting (bd_args cut) [VInt 5; VString cut_text] /\
  cut_fn feq w [VString cut_text; VInt 8] opts = (w, Ok (VString (str "hello..."))) /\
  cut_fn feq w [VString cut_text; VInt 8; VString (str "!")] opts = (w, Ok (VString (str "hello t!"))).
Proof.
  intros. destruct (cut_in feq fhash) as [H1 H2], cut_fits as (F1 & _ & F2 & F3 & _), (cut_calls feq w opts) as (C1 & C2 & _). tauto.
Qed.
Print Assumptions C99_example.
