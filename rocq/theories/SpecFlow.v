(** Specifications of single constructs, over the direct evaluation of SpecEval.v: [switch]
    (C13), [for] (C11), contexts (C19). *)
From Verif Require Import Base RleVec Pool Vecc Float NumText Value Ast Arith VmOps Compiler Vm SpecArith SpecParse
                          SpecReady SpecRel SpecVm SpecEval.

Section Flow.
Context {D : Type}.
Notation sst := (sst (D:=D)).
Notation out := (out (D:=D)).

(** Which case of a switch runs, by the values of the case expressions: [choice v cs s o s']
    says that with subject [v] the expressions of [cs], evaluated from state [s] on, are
    compared until the first equal one, in state [s'], and [o] is the body of that case. *)
Inductive choice (value_of : node -> sst -> out sval) (v : sval)
  : list (nodeS * list nodeS) -> sst -> option (list nodeS) -> sst -> Prop :=
| ch_end s : choice value_of v [] s None s
| ch_this e body cs s w s' : value_of (fst e) s = Got w s' -> geqb sfn_eq v w = Ok true ->
    choice value_of v ((e, body) :: cs) s (Some body) s'
| ch_next e body cs s w s' o s'' : value_of (fst e) s = Got w s' -> geqb sfn_eq v w = Ok false ->
    choice value_of v cs s' o s'' -> choice value_of v ((e, body) :: cs) s o s''.
(** What then runs. *)
Definition chosen (o default : option (list nodeS)) : option (list nodeS) :=
  match o with Some b => Some b | None => default end.

(** A body run once for each of a list of values, in order; the result is that of the last
    time. *)
Fixpoint each (body : sval -> sst -> out sval) (l : list sval) (last : sval) (s : sst) : out sval :=
  match l with
  | [] => Got last s
  | x :: t => seq (body x s) (fun v s => each body t v s)
  end.

(** ** Contexts *)
Inductive event := Entered (n : rstring) | Left (n : rstring).

(** Every context that is entered is left, inner ones before outer ones. *)
Inductive nested : list event -> Prop :=
| ne_nil : nested []
| ne_app a b : nested a -> nested b -> nested (a ++ b)
| ne_in n w : nested w -> nested (Entered n :: w ++ [Left n]).
(** The same, with some contexts still entered. *)
Inductive inside_some : list event -> Prop :=
| is_none w : nested w -> inside_some w
| is_in a n w : nested a -> inside_some w -> inside_some (a ++ Entered n :: w).

(** The host writes down, in its data, which contexts are entered and left and does so
    nowhere else. *)
Definition silent (events : D -> list event) (f : D -> list sval -> options -> D * res sval) : Prop :=
  forall d vs o, events (fst (f d vs o)) = events d.
Definition writes (events : D -> list event) (n : rstring) (b : sbuiltin (D:=D)) : Prop :=
  match b with
  | SFn f => silent events f
  | SContext entry exit =>
      (forall d vs o, events (fst (entry d vs o)) =
                      match snd (entry d vs o) with Ok _ => events d ++ [Entered n] | _ => events d end) /\
      forall d, events (fst (exit d)) = events d ++ [Left n]
  end.

(** ** The parts of a program, as they are evaluated within [fuel] calls and rounds *)
Section Parts.
Context (m : mode) (hst : host D) (opts : options) (builtins : rstring -> option (sbuiltin (D:=D))) (fuel : nat).
Definition node_at (top : bool) (n : node) (r : env) (s : sst) : out (option sval * env) :=
  ev m (h_oracle hst) opts builtins
     (call_at m (h_oracle hst) opts (h_enter hst) (h_leave hst) builtins fuel) fuel top n r s.
(** The statements of a program up to some point. *)
Definition statements_at (l : list nodeS) (s : sst) : out (option sval * env) :=
  stmts_with (node_at true) l [] s.
(** An expression, the body of a block. *)
Definition value_at (n : node) (r : env) (s : sst) : out sval :=
  seq (node_at false n r s) (fun vr s => the_value (fst vr) s).
Definition body_at (b : list nodeS) (r : env) (s : sst) : out sval := block_with (node_at false) b r s.
Definition option_at (b : option (list nodeS)) (r : env) (s : sst) : out sval :=
  match b with Some b => body_at b r s | None => Got VNone s end.
(** An operator applied to two values. *)
Definition applied (op : op) (v w : sval) (s : sst) : out sval :=
  match binary_fn m (h_oracle hst) sfi sfn_eq (o_string_max opts) (o_array_max opts) op with
  | Some f => lift (f v w) s
  | None => Unspecified
  end.
(** A body with new variables. *)
Definition body_with (x : var) (b : list nodeS) (r : env) (v : sval) (s : sst) : out sval :=
  seq (bind_var x v r s) (fun r' s => body_at b r' s).
End Parts.

(** What the outcome of the last statement of a program says about its run: a value is the
    result; a [return] ends the program too (in a release build). *)
Definition ends_with (m : mode) (hst : host D) (fuel : nat) (o : out sval) (s : vm D) : Prop :=
  match o with
  | Returned v st => m = Release -> agrees m hst fuel (Got v st) s
  | o => agrees m hst fuel o s
  end.
End Flow.
