(** Sessions for the examples and counterexamples in PropRepl.v. *)
From Verif Require Import Base RleVec Pool Vecc Float NumText Bytecode Chunk Value Ast Arith VmOps
                          Compiler Vm SpecVm Repl SpecRepl ExProg.

Definition rnew : repl unit := repl_new tt small [].
Definition go (r : repl unit) (l : list nodeS) : outcome unit * repl unit := execute Release plain_host 500 r (Some l).

(** let a = 1  return 2 *)
Definition bad_line : list nodeS := [let_ "a" (int 1); return_ (int 2)].
(** let a = 5; a = a + 1 *)
Definition line1 : list nodeS := [let_ "a" (int 5); assign "a" (e (NBinary OAdd (id "a") (int 1)))].
Definition line2 : list nodeS := [id "a"].


(** A builtin that answers 7. *)
Definition seven : list (list (rstring * builtin unit)) := [[(str "seven", BFn (fun d _ _ => (d, Ok (VInt 7))))]].
Definition rseven : repl unit := repl_new tt small seven.

(** let g = none  fn f() { let x = 5  g = || x  [last] } f() *)
Definition capture_line (last : nodeS) : list nodeS :=
  [ let_ "g" none_;
    fn_ "f" [] [ let_ "x" (int 5); assign "g" (e (NLambda [] [return_ (id "x")])); return_ last ];
    call (id "f") [] ].
(** { let p = 8  let q = 9  g() } *)
Definition use_line : list nodeS := [e (NBlock [let_ "p" (int 8); let_ "q" (int 9); call (id "g") []])].

Lemma dirty_seen : see (fst (go rnew bad_line)) = SeenError EReturnOutsideFunction /\
  see (fst (go (snd (go rnew bad_line)) line2)) = SeenValue (VInt 1) /\
  see (fst (go rnew line2)) = SeenError (ENameUndefined (str "a")).
Proof. repeat split; vm_compute; reflexivity. Qed.
Lemma stale_seen : see (fst (go rseven [bcall "eight" []])) = SeenError (EUndefinedBuiltin (str "eight")) /\
  see (fst (go (snd (go rseven [int 1])) [bcall "eight" []])) = SeenValue (VInt 7).
Proof. repeat split; vm_compute; reflexivity. Qed.
Lemma capture_seen :
  see (fst (go rnew (capture_line (id "x")))) = SeenValue (VInt 5) /\
  see (fst (go (snd (go rnew (capture_line (id "x")))) use_line)) = SeenValue (VInt 5) /\
  see (fst (go rnew (capture_line (call (id "x") [])))) = SeenError (ENotCallable (str "int")) /\
  see (fst (go (snd (go rnew (capture_line (call (id "x") [])))) use_line)) = SeenValue (VInt 9).
Proof. repeat split; vm_compute; reflexivity. Qed.
