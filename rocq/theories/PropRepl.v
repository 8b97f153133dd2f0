(** REPL sessions (C24, C62, C63, C64). *)
From Verif Require Import Base RleVec Pool Vecc Float NumText Bytecode Chunk Value Ast Arith VmOps
                          Compiler Vm SpecVm Repl SpecRepl ProofRepl ProofReplEx ExProg.

(** ** C24  A rejected line can change what the next line does: [let a = 1  return 2] is
    rejected, yet [a] is 1 afterwards. *)
Theorem C24_refuted : exists (r : repl unit) bad next,
  rejected (fst (execute Release plain_host 500 r (Some bad))) /\
  see (fst (execute Release plain_host 500 (snd (execute Release plain_host 500 r (Some bad))) (Some next)))
    <> see (fst (execute Release plain_host 500 r (Some next))).
Proof.
  exists rnew, bad_line, line2. split; [vm_compute; exact I|].
  match goal with |- ?a <> ?b =>
    replace a with (@SeenValue (VInt 1)) by (vm_compute; reflexivity);
    replace b with (@SeenError (ENameUndefined (str "a"))) by (vm_compute; reflexivity) end.
  discriminate.
Qed.
Print Assumptions C24_refuted.
(** What holds: a rejected line never touches the machine, its globals or the host's data;
    a line with a syntax error leaves no trace at all. *)
Theorem C24_machine_partial :
  forall D m (hst : host D) fuel r l o r', execute m hst fuel r l = (o, r') -> rejected o -> rp_vm r' = rp_vm r.
Proof. exact @rejected_machine. Qed.
Print Assumptions C24_machine_partial.
Theorem C24_syntax_partial :
  forall D m (hst : host D) fuel r l r', execute m hst fuel r l = (OSyntax, r') -> r' = r.
Proof. exact @rejected_syntax. Qed.
Print Assumptions C24_syntax_partial.
Example C24_example :
  rejected (fst (go rnew bad_line)) /\ see (fst (go rnew bad_line)) = SeenError EReturnOutsideFunction /\
  fst (execute Release plain_host 500 rnew None) = OSyntax.
Proof. repeat split; vm_compute; reflexivity. Qed.

(** ** C62  Every name that occurred in the session has, when a line starts, the value it
    had in the session, ... *)
Theorem C62_start :
  forall D m (r : repl D) ast s n, started m r ast s -> known_name r n -> global_of s n = session_global r n.
Proof. exact @started_global. Qed.
Print Assumptions C62_start.
(** ... and afterwards the value the line left it with. *)
Theorem C62_end :
  forall D m (hst : host D) fuel d o bs r ast res r' n, entered m hst fuel d o bs r ->
  execute m hst fuel r (Some ast) = (ORun res, r') -> known_name r' n ->
  session_global r' n = match res with
                        | RDone _ s | RErr _ _ s | ROut s => global_of s n
                        | RPanic => session_global r' n
                        end.
Proof. exact @ended_global. Qed.
Print Assumptions C62_end.
Example C62_example :
  entered Release plain_host 500 tt small [] (snd (go rnew line1)) /\
  session_global (snd (go rnew line1)) (str "a") = Some (VInt 6) /\ known_name (snd (go rnew line1)) (str "a") /\
  (exists s, started Release (snd (go rnew line1)) line2 s) /\
  see (fst (go (snd (go rnew line1)) line2)) = SeenValue (VInt 6).
Proof.
  split; [exact (en_line _ _ _ _ _ _ _ (Some line1) (en_new _ _ _ _ _ _))|]. split; [vm_compute; reflexivity|].
  split; [vm_compute; discriminate|]. split; [do 3 eexists; split; [vm_compute; reflexivity|reflexivity]|vm_compute; reflexivity].
Qed.

(** ** C63  Refuted: in a session whose host supplies only the builtin [seven], after the
    line [1] the call of the unknown builtin [eight] calls [seven]. *)
Theorem C63_refuted : exists (r : repl unit) before n,
  (forall l, In l (rp_builtins r) -> ~ In n (map fst l)) /\
  see (fst (execute Release plain_host 500 r (Some [(NBuiltinCall (n, default_span) [], default_span)]))) = SeenError (EUndefinedBuiltin n) /\
  see (fst (execute Release plain_host 500 (snd (execute Release plain_host 500 r (Some before)))
              (Some [(NBuiltinCall (n, default_span) [], default_span)]))) = SeenValue (VInt 7).
Proof.
  exists rseven, [int 1], (str "eight"). split; [intros l [<-|[]] [E|[]]; discriminate|]. pose proof stale_seen as C. unfold go in C. exact C.
Qed.
Print Assumptions C63_refuted.

(** ** C64  Refuted: a closure that a line stored in a global sees the last value of its
    variable if the line ends, but some other value on the stack if the line fails. *)
Theorem C64_refuted : exists (r : repl unit) (line : nodeS -> list nodeS) good bad use,
  see (fst (execute Release plain_host 500 r (Some (line good)))) = SeenValue (VInt 5) /\
  see (fst (execute Release plain_host 500 (snd (execute Release plain_host 500 r (Some (line good)))) (Some use))) = SeenValue (VInt 5) /\
  see (fst (execute Release plain_host 500 r (Some (line bad)))) = SeenError (ENotCallable (str "int")) /\
  see (fst (execute Release plain_host 500 (snd (execute Release plain_host 500 r (Some (line bad)))) (Some use))) = SeenValue (VInt 9).
Proof. exists rnew, capture_line, (id "x"), (call (id "x") []), use_line. repeat split; vm_compute; reflexivity. Qed.
Print Assumptions C64_refuted.
