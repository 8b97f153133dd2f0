(** What including files is supposed to mean (C43). *)
From Verif Require Import Base Float Ast.

Section Spec.
Context (read : rstring -> option rstring) (parse : rstring -> nat -> option (list nodeS)).

(** The files a program includes, in order. *)
Fixpoint included (ast : list nodeS) : list rstring :=
  match ast with
  | [] => []
  | (NInclude (name, _) _, _) :: t => name :: included t
  | _ :: t => included t
  end.

(** [f] includes [g] directly; directly or indirectly. *)
Definition includes (f g : rstring) : Prop :=
  exists text id ast, read f = Some text /\ parse text id = Some ast /\ In g (included ast).
Inductive leads_to : rstring -> rstring -> Prop :=
| lt_one f g : includes f g -> leads_to f g
| lt_more f g h : includes f g -> leads_to g h -> leads_to f h.
Definition acyclic : Prop := forall f, ~ leads_to f f.

(** [spliced id ast ast' id']: every include of [ast] carries the parsed contents of its
    file in [ast'], everything else is unchanged.  Files get the source ids from [id] on. *)
Inductive spliced : nat -> list nodeS -> list nodeS -> nat -> Prop :=
| sl_nil id : spliced id [] [] id
| sl_include id name nsp body sp t text a t' id' :
    read name = Some text -> parse text id = Some a -> spliced (S id) t t' id' ->
    spliced id ((NInclude (name, nsp) body, sp) :: t) ((NInclude (name, nsp) (Some a), sp) :: t') id'
| sl_other id n sp t t' id' : (forall x b, n <> NInclude x b) -> spliced id t t' id' ->
    spliced id ((n, sp) :: t) ((n, sp) :: t') id'.

(** No file included by [ast] includes another one. *)
Definition flat (ast : list nodeS) : Prop :=
  forall f g, In f (included ast) -> ~ includes f g.
End Spec.
