(** Small programs used as examples and counterexamples, written as syntax trees. *)
From Verif Require Import Base RleVec Pool Vecc Float NumText Bytecode Chunk Value Ast Arith VmOps
  Compiler Vm ProofArithEx.

Definition sp0 : span := default_span.
Definition e (n : node) : nodeS := (n, sp0).
Definition int (z : Z) : nodeS := e (NLiteral (LInt z)).
Definition name (x : String.string) : spanned rstring := (str x, sp0).
Arguments name x%string_scope.
Definition id (x : String.string) : nodeS := e (NIdentifier (str x)).
Arguments id x%string_scope.
Definition let_ (x : String.string) (v : nodeS) : nodeS := e (NDeclaration (VarDecl (name x)) v).
Arguments let_ x%string_scope v.
Definition assign (x : String.string) (v : nodeS) : nodeS := e (NAssignment (name x) v).
Arguments assign x%string_scope v.
Definition call (f : nodeS) (a : list nodeS) : nodeS := e (NCall f a).
Definition bcall (x : String.string) (a : list nodeS) : nodeS := e (NBuiltinCall (name x) a).
Arguments bcall x%string_scope a.
Definition fn_ (x : String.string) (ps : list (spanned rstring)) (body : list nodeS) : nodeS :=
  e (NFunction (name x) ps body).
Arguments fn_ x%string_scope ps body.
Definition with_ (x : String.string) (a body : list nodeS) : nodeS := e (NContext (name x) a None body).
Arguments with_ x%string_scope a body.
Definition return_ (v : nodeS) : nodeS := e (NReturn (Some v)).
Definition none_ : nodeS := e (NLiteral LNone).

(** A host without data whose clock stands still, and small limits. *)
Definition plain_host {D} : host D := mkHost (fun x => x) (fun x => x) (fun _ => 0%N) 10 no_oracle.
Definition small : options := mkOptions 10 50 20 1000 1000.

(** Compile and run a program. *)
Definition script_of (ast : list nodeS) : script :=
  match compile Release ast with COk sc => sc | _ => mkScript [] pool_new (fn_blank []) end.
Definition runs {D} (s : vm D) : option (value * D) :=
  match run Release plain_host 2000 s with RDone v s' => Some (v, v_data s') | _ => None end.
Definition result (ast : list nodeS) : option value :=
  match compile Release ast with
  | COk sc => option_map fst (runs (vm_new tt sc small))
  | _ => None
  end.
