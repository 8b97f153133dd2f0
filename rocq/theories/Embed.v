(** Building scripts for a host program: src/lib.rs and the traits of parser/src/includes.rs. *)
From Verif Require Import Base Float Ast Value Compiler Report.

(** What resolving includes comes to, with the state of the resolver and the source cache after
    it.  [Deep]: the recursion went deeper than the fuel (the source has no bound). *)
Inductive built (R A : Type) := Built (a : A) (r : R) (c : list source) | Failed (e : error) (sp : span) (r : R) (c : list source) | Deep.
Arguments Built {R A}. Arguments Failed {R A}. Arguments Deep {R A}.

(** includes.rs:12-15: the trait IncludeResolver, as the host implements it.  Its method [resolve]
    may call [parse_with_includes] of the cache with itself: its first argument. *)
Record resolver (R : Type) := mkResolver {
  r_resolve : (R -> list source -> rstring -> rstring -> built R (list nodeS)) ->
              R -> list source -> rstring -> span -> built R (list nodeS);
  r_resolved : R -> rstring -> bool }.
Arguments mkResolver {R}. Arguments r_resolve {R}. Arguments r_resolved {R}.

Section Build.
Context (parse : rstring -> nat -> option (list nodeS)).
(** sourcecache.rs:49-56 *)
Definition add_source (c : list source) (name text : rstring) : list source := c ++ [mkSource name text].
(** includes.rs:60-67: parsing alone.  The offset of a syntax error is not modelled: the position
    is the beginning of the text. *)
Definition cache_parse {R} (r : R) (c : list source) (name text : rstring) : built R (list nodeS) :=
  match parse text (length c) with
  | None => Failed (EUnexpectedToken 0) (mkSpan 0 0 (length c)) r (add_source c name text)
  | Some ast => Built ast r (add_source c name text)
  end.

Context {R : Type} (rs : resolver R).
(** includes.rs:69-83, given the resolving of includes (89-114) *)
Definition parse_files (all : list nodeS -> R -> list source -> built R (list nodeS)) (r : R) (c : list source) (name text : rstring) : built R (list nodeS) :=
  match cache_parse r c name text with
  | Built ast r c => all ast r c
  | x => x
  end.
(** includes.rs:85-114 *)
Fixpoint resolve_all (fuel : nat) (ast : list nodeS) (r : R) (c : list source) {struct fuel} : built R (list nodeS) :=
  match fuel with
  | O => Deep
  | S k =>
      (fix go (ast : list nodeS) (r : R) (c : list source) {struct ast} : built R (list nodeS) :=
         match ast with
         | [] => Built [] r c
         | (NInclude (name, nsp) body, sp) :: t =>
             if r_resolved rs r name then Failed (ECircularInclude name) nsp r c else
             match r_resolve rs (parse_files (resolve_all k)) r c name nsp with
             | Built a r c =>
                 match resolve_all k a r c with
                 | Built a r c =>
                     match go t r c with
                     | Built t' r c => Built ((NInclude (name, nsp) (Some a), sp) :: t') r c
                     | x => x
                     end
                 | x => x
                 end
             | x => x
             end
         | x :: t => match go t r c with Built t' r c => Built (x :: t') r c | y => y end
         end) ast r c
  end.

(** lib.rs:52-71.  The cache is dropped when a script is built, and is part of the error when not.
    [None]: the compiler panics. *)
Definition build_script (m : mode) (fuel : nat) (name text : rstring) (r : R) : option (built R script) :=
  match parse_files (resolve_all fuel) r [] name text with
  | Built ast r c =>
      match compile m ast with
      | COk sc => Some (Built sc r c)
      | CErr e sp => Some (Failed e sp r c)
      | CPanic => None
      end
  | Failed e sp r c => Some (Failed e sp r c)
  | Deep => Some Deep
  end.
End Build.

(** includes.rs:17-42: DefaultIncludeResolver; [read] is the file system. *)
Definition default_resolver (read : rstring -> option rstring) : resolver (list rstring) :=
  mkResolver
    (fun self r c name nsp =>
       match read name with
       | None => Failed (ECouldNotResolve name) nsp r c
       | Some text =>
           match self r c name text with
           | Built ast r c => Built ast (name :: r) c
           | x => x
           end
       end)
    (fun r name => existsb (seqb name) r).

(** A resolver a host may write: it looks files up in a table and parses them, and leaves the
    includes of these files to the cache (includes.rs:106). *)
Definition table_resolver (parse : rstring -> nat -> option (list nodeS)) (read : rstring -> option rstring) : resolver unit :=
  mkResolver
    (fun _ r c name nsp =>
       match read name with
       | None => Failed (ECouldNotResolve name) nsp r c
       | Some text => cache_parse parse r c name text
       end)
    (fun _ _ => false).
