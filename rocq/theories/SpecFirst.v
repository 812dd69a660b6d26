(** Where the first syntax error of a source has to be. *)
From Verif Require Import Base Lexer Ast Parser SpecLexer SpecParser SpecReport.

(** The tokens of a source: what the lexer gives apart from its errors *)
Definition source_tokens (src : bytes) : list token :=
  flat_map (fun o => match o with OkTok t => [t] | ErrTok _ => [] end) (outputs (Lexer.lex src)).

(** Some program of the grammar begins with these tokens. *)
Definition hopeful (ts : list token) : Prop := exists rest b, gprogram (ts ++ rest) b.
