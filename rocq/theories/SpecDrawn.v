(** What the drawing of reports may rely on (C97). *)
From Verif Require Import Base RleVec Pool Float NumText Bytecode Chunk Value Ast Arith VmOps Args Parse Builtins
  Compiler Vm Std Console Includes Report Repl Cli SpecPos.

(** A position in one of the texts of a source cache: the cache has a source with its number, and
    both offsets cut the text of that source. *)
Definition in_sources (c : list source) (sp : span) : Prop :=
  exists src, nth_error c (sp_src sp) = Some src /\ within (src_text src) sp.

(** Two ways of printing that agree wherever they are asked about places of the texts.  What they
    do with other places, where the crate that draws panics or prints nothing, is left open. *)
Record agree (p q : printer) : Prop := {
  ag_escape : p_escape p = p_escape q;
  ag_duration : p_duration p = p_duration q;
  ag_syntax : p_syntax p = p_syntax q;
  ag_draw : forall c title sp text, in_sources c sp -> p_draw p c title sp text = p_draw q c title sp text;
  ag_line : forall a b, p_offset_line p (a ++ b) (N.to_nat (slen a)) = p_offset_line q (a ++ b) (N.to_nat (slen a));
  ag_text : forall a b l, p_offset_line p (a ++ b) (N.to_nat (slen a)) = Some l -> p_nth_line p (a ++ b) l = p_nth_line q (a ++ b) l }.
