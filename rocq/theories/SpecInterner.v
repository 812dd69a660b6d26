(** What symbols are for: names of a source. *)
From Verif Require Import Base Lexer SpecLexer SpecFirst.

(** The name stands in the source, as an identifier or after a dollar sign. *)
Definition unit_has (name : bytes) (u : arg_unit) : Prop := exists p, u = AUDollar name p.
Definition part_has (name : bytes) (x : arg_part) : Prop :=
  match x with
  | PUnquoted u => unit_has name u
  | PDoubleQuoted us => exists u, In u us /\ unit_has name u
  | _ => False
  end.
Definition token_has (name : bytes) (t : token) : Prop :=
  match tk_kind t with
  | TIdentifier s => s = name
  | TArgument ps => exists x, In x ps /\ part_has name x
  | _ => False
  end.
Definition named_in (src name : bytes) : Prop := exists t, In t (source_tokens src) /\ token_has name t.
