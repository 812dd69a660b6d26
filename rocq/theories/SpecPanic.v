(** Where panics are said to happen. *)
From Verif Require Import Base Lexer Ast Parser Program Sema Value StdLib SpecLexer SpecFirst.

(** The place a panic names *)
Definition panic_place (e : panic) : spos :=
  match e with
  | PStackOverflow p | PIntegerOverflow p | PDivisionByZero p | PIndexOutOfBounds _ p | PEmptyCollection p
  | PInvalidCall _ p | PInvalidArgs _ _ p | PInvalidCondition _ p | PTypeError _ _ p | PValueError _ _ p
  | PAssignToReadonlyField _ p | PInvalidCommandArgs _ _ p | PIo _ p | PUnsupportedFd _ p
  | PInvalidPattern _ p | PAssertionFailed p | PImportFailed _ p | PInvalidJoin p | PUser _ p => p
  end.

(** The places of a text: where its tokens begin, and where the variables inside of arguments
    begin. *)
Definition unit_places (u : arg_unit) : list pos := match u with AULiteral _ => [] | AUDollar _ p => [p] end.
Definition part_places (p : arg_part) : list pos :=
  match p with PUnquoted u => unit_places u | PDoubleQuoted us => flat_map unit_places us | _ => [] end.
Definition token_places (t : token) : list pos :=
  tk_pos t :: match tk_kind t with TArgument ps => flat_map part_places ps | _ => [] end.
Definition text_places (src : bytes) : list pos := flat_map token_places (source_tokens src).

(** The text has no errors. *)
Definition error_free (src : bytes) : Prop := exists b p, analyze src = Analysis b [] [] /\ sema b = SemaOk p.

Section Places.
Context {W : Type} (X : ext W) (path src : bytes).

(** The texts there are: the script, and the files that can be imported *)
Inductive text_of : bytes -> bytes -> Prop :=
| tx_script : error_free src -> text_of path src
| tx_module f w t : x_file X f w = inr t -> error_free t -> text_of f t.

(** The panic names a place of a text without errors; or it tells that there is no room for
    the variables of a file, and names the file. *)
Inductive names_place : panic -> Prop :=
| np_place e t :
    text_of (sp_path (panic_place e)) t -> In (sp_pos (panic_place e)) (text_places t) -> names_place e
| np_file f t : text_of f t -> names_place (PStackOverflow (mkspos f (mkpos 0 0))).

(** Asynchronous blocks run beside the interpreter and are not modelled: what is assumed of
    them is that their panics name places as well. *)
Definition joins_place : Prop := forall i h w e w', x_join X i h w = (inr e, w') -> names_place e.
End Places.
