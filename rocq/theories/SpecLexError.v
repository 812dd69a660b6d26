(** What an error of the lexer has to be about: the stretch of text that begins at the place
    the error names.  Independent of the automaton. *)
From Verif Require Import Base Lexer SpecLexer.
Local Open Scope byte_scope.

(** [w] stands in [src] at the place [p], followed by [rest]. *)
Definition stands (src w : bytes) (p : pos) (rest : bytes) : Prop :=
  exists pre, src = pre ++ w ++ rest /\ p = position_of pre.

(** The four tables of escapes: of string and byte literals, and of the words, single-quoted and
    double-quoted arguments of commands. *)
Definition escape_tables : list (list (byte * byte)) :=
  [string_escapes; unquoted_escapes; single_quoted_escapes; double_quoted_escapes].

(** No byte of [t] is the letter of an escape, according to one of the tables. *)
Definition no_escapes (t : bytes) : Prop :=
  exists table, In table escape_tables /\ Forall (fun c => ~ In c (map fst table)) t.

(** Digits cut off after the dot or the letter of an exponent. *)
Inductive cut_number : bytes -> Prop :=
| cn_dot a : all_digits a -> cut_number (a ++ ["."])
| cn_exp a e : all_digits a -> e = "e" \/ e = "E" -> cut_number (a ++ [e])
| cn_both a b e : all_digits a -> Forall (fun c => digit c = true) b -> e = "e" \/ e = "E" ->
    cut_number (a ++ "." :: b ++ [e]).

(** An error describes the text at its place. *)
Definition described (src : bytes) (e : lex_error) : Prop :=
  match le_kind e with
  | UnexpectedEof => stands src [] (le_pos e) []
  | Unexpected c => exists rest, stands src [c] (le_pos e) rest
  | EmptyByteLiteral => exists rest, stands src ["'"; "'"] (le_pos e) rest
  | InvalidEscapeSequence s =>
    exists c rest, s = [BSLASH; c] /\ stands src s (le_pos e) rest /\ no_escapes [c]
  | InvalidNumber s =>
    exists rest, stands src s (le_pos e) rest /\ ~ starts_with digit rest /\
      all_digits s /\ (9223372036854775807 < decimal_value s)%Z
  | InvalidIdentifier s =>
    ~ is_identifier s /\
    ((exists rest, stands src ("$" :: s) (le_pos e) rest /\ ~ starts_with word_byte rest) \/
     (exists rest, stands src ("$" :: "{" :: s ++ ["}"]) (le_pos e) rest /\ ~ In "}" s))
  end.

(** The two exceptions.  What is wrong with a number comes after the number, but the place
    given is that of its first digit. *)
Definition about_cut_number (src : bytes) (e : lex_error) : Prop :=
  exists w rest, stands src w (le_pos e) rest /\ cut_number w /\ ~ starts_with digit rest /\
    le_kind e = match rest with [] => UnexpectedEof | c :: _ => Unexpected c end.

(** An invalid escape in the argument of a command is not over after its letter: the next byte
    is tried as a letter for the same backslash, and the error shows everything since then. *)
Definition about_long_escape (src : bytes) (e : lex_error) : Prop :=
  exists c d t rest, le_kind e = InvalidEscapeSequence (BSLASH :: c :: d :: t) /\
    stands src (BSLASH :: c :: d :: t) (le_pos e) rest /\ no_escapes (c :: d :: t).
